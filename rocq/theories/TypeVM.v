(** * Typed code keeps threads typed *)
From Verif Require Import Base Token Values Heap GCSpec GCProofs Code VM VMBasics VMSpec VMInv VMFrame VMProps
  Syntax Symbols Resolve Compile Layout LayoutProofs TableInv HeightSpec TypeSpec TypeCode.
Local Open Scope nat_scope.

Lemma Forall2_len {A B} (R : A -> B -> Prop) l l' : Forall2 R l l' -> length l = length l'.
Proof. induction 1; cbn; auto. Qed.
Lemma Forall2_nth {A B} (R : A -> B -> Prop) l l' i x y : Forall2 R l l' -> nth_error l i = Some x -> nth_error l' i = Some y -> R x y.
Proof. intros F. revert i. induction F; intros [|i]; cbn; try discriminate; [congruence|apply IHF]. Qed.
Lemma Forall2_update {A B} (R : A -> B -> Prop) l l' i x y : Forall2 R l l' -> nth_error l i = Some x -> R x y -> Forall2 R l (update l' i y).
Proof.
  intros F. revert i. induction F as [|a b l l' Rab F IH]; intros [|i] N Rxy; cbn in N; try discriminate.
  - injection N as ->. unfold update; cbn. constructor; auto.
  - change (update (b :: l') (Datatypes.S i) y) with (b :: update l' i y). constructor; auto.
Qed.
Lemma Forall2_rev {A B} (R : A -> B -> Prop) l l' : Forall2 R l l' -> Forall2 R (rev l) (rev l').
Proof. induction 1; cbn; auto. apply Forall2_app; auto. Qed.
Lemma Forall2_imp {A B} (R R' : A -> B -> Prop) l l' : (forall x y, R x y -> R' x y) -> Forall2 R l l' -> Forall2 R' l l'.
Proof. intros I. induction 1; auto. Qed.
Lemma nth_rev {A} (l : list A) i : i < length l -> nth_error (rev l) (length l - 1 - i) = nth_error l i.
Proof.
  intros L. destruct (nth_error l i) as [x|] eqn:E; [|apply nth_error_None in E; lia].
  pose proof (nth_error_nth _ _ x E) as N. rewrite (nth_error_nth' (rev l) x) by (rewrite rev_length; lia).
  f_equal. rewrite rev_nth by lia. rewrite <- N at 2. f_equal. lia.
Qed.
Lemma hget_spec h id o : hget h id = Some o -> In o h /\ o_id o = id.
Proof. induction h as [|x h IH]; cbn; [discriminate|]. destruct (Nat.eqb_spec (o_id x) id); [intros [= ->]; auto|]. intros E. apply IH in E. tauto. Qed.

Section Types.
Variable t0 : tbl.

Lemma more_refl S : more S S. Proof. intros o id. auto. Qed.
Lemma more_trans S S' S'' : more S S' -> more S' S'' -> more S S''. Proof. intros A B o id E. auto. Qed.
Lemma has_more S S' g v : more S S' -> has t0 S g v -> has t0 S' g v.
Proof. intros M. induction 1; try (constructor; auto; fail). eapply has_nullable; eauto. Qed.
Lemma has_opt_more S S' g v : more S S' -> has_opt t0 S g v -> has_opt t0 S' g v.
Proof. intros M A g' E. eapply has_more; eauto. Qed.
Lemma all_more S S' gs vs : more S S' -> Forall2 (has t0 S) gs vs -> Forall2 (has t0 S') gs vs.
Proof. intros M. apply Forall2_imp. intros x y. apply has_more; auto. Qed.
Lemma args_more S S' a vs : more S S' -> args_typed t0 S a vs -> args_typed t0 S' a vs.
Proof. intros M. apply Forall2_imp. intros x y. apply has_opt_more; auto. Qed.
Lemma object_more S S' id b : more S S' -> object_typed t0 S id b -> object_typed t0 S' id b.
Proof. intros M (fs & vs & E & B & F). exists fs, vs. split; auto. split; auto. eapply Forall2_imp; [|exact F]. intros. eapply has_more; eauto. Qed.
Lemma global_more S S' i v : more S S' -> global_typed t0 S i v -> global_typed t0 S' i v.
Proof. intros M A y b g I E. eapply has_more; eauto. Qed.
Lemma subs_has S gs gs' vs : Forall2 (sub t0) gs gs' -> Forall2 (has t0 S) gs vs -> Forall2 (has t0 S) gs' vs.
Proof. intros F. revert vs. induction F; intros vs A; inversion A; subst; constructor; auto. Qed.

(** Values of the basic types *)
Lemma has_int_inv S v : has t0 S GInt v -> v = VNull \/ exists i, v = VInt i.
Proof. inversion 1; subst; eauto. destruct H0 as [E|[E|E]]; discriminate. Qed.
Lemma has_float_inv S v : has t0 S GFloat v -> v = VNull \/ exists i, v = VFloat i.
Proof. inversion 1; subst; eauto. destruct H0 as [E|[E|E]]; discriminate. Qed.
Lemma has_bool_inv S v : has t0 S GBool v -> v = VNull \/ exists i, v = VBool i.
Proof. inversion 1; subst; eauto. destruct H0 as [E|[E|E]]; discriminate. Qed.
Lemma sfields_kind id fs : sfields t0 id = Some fs -> kind_of t0 (GSym id) = Some KStruct.
Proof. unfold sfields. cbn. destruct (sym_at t0 id) as [[? ? []]|]; discriminate || auto. Qed.
Lemma has_struct_inv S id fs v : sfields t0 id = Some fs -> has t0 S (GSym id) v -> v = VNull \/ exists o, v = VStruct o /\ S o = Some id.
Proof.
  intros E Hv. apply sfields_kind in E. inversion Hv; subst; eauto.
  - rewrite E in H0. discriminate.
  - destruct H as [K|[K|K]]; rewrite E in K; discriminate.
Qed.
Lemma num_inv S g v : is_num g -> has t0 S g v -> number_or_null v.
Proof. intros [->| ->] Hv; [apply has_int_inv in Hv; left; auto|apply has_float_inv in Hv as [->|(b & ->)]; [left; left; auto|right; eauto]]. Qed.

Lemma bin_typed S o a b g va vb v : bin_ty o a b g -> has t0 S a va -> has t0 S b vb -> do_bin o va vb = Ok v -> has t0 S g v.
Proof.
  unfold bin_ty. intros Ty Ha Hb E.
  assert (Narrow : forall f, a = GInt /\ b = GInt /\ g = GInt -> bin_op_int f va vb = Ok v -> has t0 S g v).
  { intros f (-> & -> & ->) E'. apply has_int_inv in Ha as [->|(x & ->)]; [discriminate|]. apply has_int_inv in Hb as [->|(y & ->)]; [discriminate|].
    unfold bin_op_int in E'. cbn [raw_i] in E'. destruct (f x y); inversion E'; subst. constructor. }
  assert (Wide : forall fi ff, (forall x y r, fi x y = Ok r -> exists i, r = VInt i) -> is_num a /\ is_num b /\ g = match a, b with GInt, GInt => GInt | _, _ => GFloat end ->
     bin_op fi ff va vb = Ok v -> has t0 S g v).
  { intros fi ff Hi ([->| ->] & [->| ->] & ->) E'; apply has_int_inv in Ha || apply has_float_inv in Ha; apply has_int_inv in Hb || apply has_float_inv in Hb;
      destruct Ha as [->|(x & ->)]; destruct Hb as [->|(y & ->)]; try discriminate E'; cbn [bin_op as_float] in E'; try (inversion E'; subst; constructor; fail).
    apply Hi in E' as (i & ->). constructor. }
  assert (Rel : forall fi ff, g = GBool -> rel_op fi ff va vb = Ok v -> has t0 S g v).
  { intros fi ff -> E'. unfold rel_op in E'. destruct va, vb; cbn [as_float] in E'; try discriminate E'; inversion E'; subst; constructor. }
  assert (Ir : forall z r, int64_result z = Ok r -> exists i, r = VInt i) by (unfold int64_result; intros z r; destruct (in_int64 z); intros [= <-]; eauto).
  destruct o; cbn [is_narrow is_wide] in Ty; cbn [do_bin] in E; eauto; try (eapply Rel; [apply Ty|exact E]); try (eapply Wide; [|exact Ty|exact E]; intros x y r E'; cbn beta in E'; try (eapply Ir; exact E'; fail)).
  destruct (c_div x y); inversion E'; eauto.
Qed.

Section Dynamic.
Context {H : Type} (M : machine H) (poll : nat -> nat -> bool) (st : Z -> option nat -> ast -> Prop).
Variables (inv : store -> H -> Prop) (callees : nat -> list value -> fprog H).
Hypothesis Ht : typing t0 (m_code M) (m_fpcs M) st.
Hypothesis Ph : polite_host t0 H inv callees (m_natives M).
Hypothesis HX : forall y i a va r c, In y (tb_syms t0) -> sy_body y = SyForeign i a va r c -> nth_error (m_foreign M) i = Some (callees c).
Hypothesis HR : m_stack M = Some stack_size.
Hypothesis HU : forall y i a l r, In y (tb_syms t0) -> sy_body y = SyFunc i a l r -> sym_at t0 (sy_id y) = Some y.
Hypothesis HI : forall y y' i a l r a' l' r', In y (tb_syms t0) -> In y' (tb_syms t0) -> sy_body y = SyFunc i a l r -> sy_body y' = SyFunc i a' l' r' -> y = y'.
Hypothesis HG : forall y y' i b g b' g', In y (tb_syms t0) -> In y' (tb_syms t0) -> sy_body y = SyGlobal i b g -> sy_body y' = SyGlobal i b' g' -> y = y'.
Notation typed := (typed_thread t0 H inv).
Notation has := (has t0).

(** ** Changes of a thread *)
Definition same_mem (t t' : thread H) : Prop :=
  t_heap t' = t_heap t /\ t_next t' = t_next t /\ t_nobj t' = t_nobj t /\ t_globs t' = t_globs t /\ t_host t' = t_host t.
Lemma typed_same S t t' : same_mem t t' -> typed S t -> typed S t'.
Proof. intros (E1 & E2 & E3 & E4 & E5) [A B C D E]. constructor; unfold thread_ok in *; rewrite ?E1, ?E2, ?E3, ?E4, ?E5 in *; auto. Qed.

Lemma typed_alloc S t b o t' : typed S t -> alloc t b = (o, t') -> S (t_next t) = None /\ o = t_next t /\ typed S t'.
Proof.
  intros [A B C D E] Ea. injection Ea as <- <-.
  assert (N : S (t_next t) = None) by (destruct (S (t_next t)) eqn:X; auto; apply B in X; lia).
  split; auto. split; auto. constructor; cbn; auto.
  - apply (ok3_alloc _ _ _ b A).
  - intros o id X. apply B in X. lia.
  - intros ob id [<-|I] X; [cbn in X; congruence|eauto].
Qed.
Lemma typed_struct S t id vs o t' : typed S t -> object_typed t0 S id (BStruct vs) -> alloc t (BStruct vs) = (o, t') ->
  exists S', more S S' /\ S' o = Some id /\ typed S' t'.
Proof.
  intros T Ob Ea. destruct (typed_alloc _ _ _ _ _ T Ea) as (N & -> & T').
  exists (fun x => if x =? t_next t then Some id else S x).
  assert (Mo : more S (fun x => if x =? t_next t then Some id else S x)).
  { intros x i X. destruct (Nat.eqb_spec x (t_next t)); [congruence|auto]. }
  split; auto. split; [rewrite Nat.eqb_refl; auto|]. injection Ea as Ea'. destruct T as [A B C D E], T' as [A' B' C' D' E']. constructor; auto.
  - intros x i X. destruct (Nat.eqb_spec x (t_next t)); [subst; cbn; lia|]. eauto.
  - intros ob i I X. subst t'. cbn in I. destruct I as [<-|I].
    + cbn in X |- *. rewrite Nat.eqb_refl in X. injection X as <-. eapply object_more; eauto.
    + destruct (Nat.eqb_spec (o_id ob) (t_next t)) as [Eo|]; [destruct A as (_ & _ & A); eapply Forall_forall in A; [|exact I]; lia|].
      eapply object_more; [exact Mo|]. eapply C; eauto.
  - intros g i v Eg Nv. eapply global_more; [exact Mo|]. eapply D'; eauto.
  - eapply ph_more; eauto.
Qed.
Lemma typed_set S t s o id fs vs k v f t' : typed S t -> S o = Some id -> sfields t0 id = Some fs -> nth_error fs k = Some f -> has S (fd_tag f) v ->
  hget (t_heap t) o = Some (mkObj s false (BStruct vs)) \/ (exists m, hget (t_heap t) o = Some (mkObj s m (BStruct vs))) ->
  t' = with_heap t (hset (t_heap t) o (fun o => mkObj (o_id o) (o_mark o) (BStruct (update vs k v)))) -> typed S t'.
Proof.
  intros [A B C D E] So Sf Nf Hv Hg ->. assert (Hg' : exists m, hget (t_heap t) o = Some (mkObj s m (BStruct vs))) by (destruct Hg; eauto). clear Hg. destruct Hg' as (m & Hg).
  constructor; cbn; auto.
  - apply (ok3_set _ _ _ o vs k v A).
  - intros ob i I X. destruct A as ((Nd & _) & _).
    assert (Cs : In ob (t_heap t) \/ (o_id ob = o /\ o_body ob = BStruct (update vs k v))).
    { clear - I. induction (t_heap t) as [|x h IH]; cbn in *; auto. destruct (Nat.eqb_spec (o_id x) o) as [<-|].
      - destruct I as [<-|I]; auto.
      - destruct I as [<-|I]; auto. destruct (IH I); auto. }
    destruct Cs as [I'|(Eo & ->)]; [eapply C; eauto|]. rewrite Eo, So in X. injection X as <-.
    apply hget_spec in Hg as (Ih & Eh). cbn in Eh. subst s. destruct (C _ _ Ih So) as (fs' & vs' & Sf' & Eb & F2). rewrite Sf in Sf'. injection Sf' as <-. cbn in Eb. injection Eb as <-.
    exists fs, (update vs k v). split; auto. split; auto. eapply Forall2_update; eauto.
Qed.
Lemma typed_glob S t i v t' : typed S t -> global_typed t0 S (Z.to_nat i) v -> glob_put t i v = Ok t' -> typed S t' /\ t_stk t' = t_stk t.
Proof.
  intros [A B C D E] G Eq. unfold glob_put in Eq. destruct (t_globs t) as [g|] eqn:Eg; [|discriminate]. destruct (Nat.ltb_spec (Z.to_nat i) (length g)); inversion Eq; subst.
  split; auto. constructor; cbn; auto. intros g' j u [= <-] N. destruct (Nat.eq_dec (Z.to_nat i) j) as [<-|Ne].
  - rewrite nth_error_update_eq in N by lia. injection N as <-. exact G.
  - rewrite nth_error_update_ne in N by auto. eapply D; eauto.
Qed.
Lemma typed_alloc_globals S t : typed S t -> typed S (alloc_globals M t).
Proof.
  intros T. unfold alloc_globals. destruct (t_globs t) eqn:Eg; auto. destruct T as [A B C D E]. constructor; cbn; auto.
  intros g i v [= <-] N. apply nth_error_In in N. apply repeat_spec in N. subst v. intros y b g _ _. constructor.
Qed.
Lemma finalize_inv S l w : inv S w -> inv S (finalize_all (m_natives M) w l).
Proof.
  unfold finalize_all. revert w. induction l as [|o l IH]; intros w Iw; cbn; auto. apply IH.
  destruct (o_body o); auto. destruct (_ =? 0); auto. eapply ph_finalize; eauto.
Qed.
Lemma typed_gc S t t' : typed S t -> gc M t = Ok t' -> typed S t'.
Proof.
  intros [A B C D E] G. unfold gc in G. destruct (roots M t) as [rs| | |]; try discriminate.
  destruct (collect _ _ _ _ _) as [[[[h w] n] mx]| | |] eqn:Cl; try discriminate. inversion G; subst.
  destruct (collect_exact _ _ _ _ _ _ _ _ _ (proj1 A) Cl) as (dead & K & _ & -> & _). constructor; cbn; auto.
  - apply (ok3_gc _ _ _ _ _ _ _ _ _ _ A Cl).
  - intros ob id I. apply (keeps_in _ _ _ K) in I. apply C. apply I.
  - apply finalize_inv. exact E.
Qed.

(** ** Foreign functions *)
Definition calls_ok (callf : thread H -> Z -> list value -> outcome (value * thread H)) : Prop :=
  forall S t f args v t' params locals r, typed S t -> fun_sig t0 (Z.to_nat f) params locals r -> args_typed t0 S params args ->
    callf t f args = Ok (v, t') -> exists S', more S S' /\ typed S' t' /\ has_opt t0 S' r v /\ t_stk t' = t_stk t.

Lemma fprog_typed callf (CK : calls_ok callf) ret p : forall S t v t', polite t0 H inv S ret p -> typed S t -> run_fprog M callf p t = Ok (v, t') ->
  exists S', more S S' /\ typed S' t' /\ has S' ret v /\ t_stk t' = t_stk t.
Proof.
  induction p as [v0| | |k IH|w p IH|v0 k IH|s k IH|a pr k IH|i k IH|i v0 p IH|f args k IH]; intros S t v t' Po T E; cbn [run_fprog polite] in *; try discriminate.
  - inversion E; subst. exists S. split; [apply more_refl|]. auto.
  - eapply IH; [|exact T|exact E]. apply Po. apply T.
  - destruct Po as (I & Po). eapply IH in E; [exact E|exact Po|]. destruct T as [A B C D _]. constructor; auto.
  - destruct (ref_of v0) as [o|] eqn:Rf; [|discriminate]. destruct (hget (t_heap t) o) as [ob|] eqn:Hg; [|discriminate].
    eapply IH; [|exact T|exact E]. apply Po. intros o' id -> So. cbn in Rf. injection Rf as ->. apply hget_spec in Hg as (I & Eo). subst o. eapply tt_heap; eauto.
  - destruct (alloc t (BStr s)) as [o t1] eqn:Al. destruct (typed_alloc _ _ _ _ _ T Al) as (_ & _ & T1). injection Al as _ <-. eapply IH in E; [exact E|apply Po|exact T1].
  - unfold oassert in E. destruct (0 <=? t_pc t)%Z; [|discriminate]. destruct (alloc t (BNative a pr)) as [o t1] eqn:Al. destruct (typed_alloc _ _ _ _ _ T Al) as (_ & _ & T1). injection Al as _ <-. eapply IH in E; [exact E|apply Po|exact T1].
  - destruct (get_global M t i) as [v1| | |] eqn:G; try discriminate. eapply IH; [|exact T|exact E]. apply Po.
    unfold get_global, oassert, glob_at in G. destruct (_ && _)%bool; [|discriminate]. destruct (t_globs t) eqn:Eg; [|discriminate].
    destruct (nth_error l (Z.to_nat i)) eqn:N; inversion G; subst. eapply tt_globs; eauto.
  - destruct Po as (Gt & Po). destruct (set_global M t i v0) as [t1| | |] eqn:G; try discriminate.
    unfold set_global, oassert in G. destruct (_ && _)%bool; [|discriminate]. destruct (t_globs t) eqn:Eg; [|discriminate].
    destruct (typed_glob _ _ _ _ _ T Gt G) as (T1 & Es). rewrite <- Es. eapply IH; eauto.
  - destruct Po as (params & locals & r & Fs & Ar & Po). destruct (callf t f args) as [[v1 t1]| | |] eqn:Ec; try discriminate.
    destruct (CK _ _ _ _ _ _ _ _ _ T Fs Ar Ec) as (S1 & M1 & T1 & Hr & Es). rewrite <- Es.
    destruct (IH _ _ _ _ _ (Po _ _ M1 Hr) T1 E) as (S2 & M2 & R). exists S2. split; [eapply more_trans; eauto|exact R].
Qed.

(** ** Running code *)
Section Floor.
(** a call from the host: the depth of its frame, the function, the stack before it *)
Variables (d : nat) (c0 : option nat) (base : list value).

Fixpoint frames_ty (S : store) (cur : option nat) (rest : list value) (frs : list frame) : Prop :=
  match frs with
  | [] => cur = None /\ d = 0
  | f :: fr =>
      exists vs rest', rest = rev vs ++ rest' /\ args_typed t0 S (params_of t0 cur) vs /\
        ((length frs = d /\ cur = c0 /\ rest' = base /\ f_nargs f <= length vs) \/
         (cur <> None /\ f_nargs f = length vs /\ exists cur' A top rest'', st (f_pc f) cur' A /\ rest' = top ++ rest'' /\ length rest'' = f_fp f /\
            Forall2 (has S) (fst A) top /\ (snd A = None \/ snd A = ret_of t0 cur) /\ frames_ty S cur' rest'' fr))
  end.
Lemma frames_more S S' cur rest frs : more S S' -> frames_ty S cur rest frs -> frames_ty S' cur rest frs.
Proof.
  intros Mo. revert cur rest. induction frs as [|f fr IH]; intros cur rest; cbn; auto.
  intros (vs & rest' & E & A & C). exists vs, rest'. split; auto. split; [eapply args_more; eauto|].
  destruct C as [C|(N & En & cur' & B & top & rest'' & X1 & X2 & X3 & X4 & X5 & X6)]; auto.
  right. split; auto. split; auto. exists cur', B, top, rest''. repeat (split; auto). eapply all_more; eauto.
Qed.
Lemma frames_deep S cur rest frs : frames_ty S cur rest frs -> d <= length frs.
Proof.
  revert cur rest. induction frs as [|f fr IH]; intros cur rest; cbn; [intros (_ & ->); auto|].
  intros (vs & rest' & E & A & C). destruct C as [(C & _)|(N & En & cur' & B & top & rest'' & X1 & X2 & X3 & X4 & X5 & X6)]; [lia|]. apply IH in X6. lia.
Qed.
Lemma frames_none S rest frs : frames_ty S None rest frs -> c0 <> None -> d = 0 /\ frs = [].
Proof.
  destruct frs as [|f fr]; cbn; [intros (_ & ->); auto|]. intros (vs & rest' & E & A & C) N. exfalso.
  destruct C as [(_ & C & _)|(C & _)]; congruence.
Qed.

(** the arguments of the function running *)
Lemma frames_args S cur rest frs : frames_ty S cur rest frs -> exists vs rest', rest = rev vs ++ rest' /\ args_typed t0 S (params_of t0 cur) vs /\
  forall vs', args_typed t0 S (params_of t0 cur) vs' -> frames_ty S cur (rev vs' ++ rest') frs.
Proof.
  destruct frs as [|f fr]; cbn.
  - intros (-> & ->). exists [], rest. cbn. split; auto. split; [constructor|]. auto.
  - intros (vs & rest' & E & A & C). exists vs, rest'. split; auto. split; auto. intros vs' A'. exists vs', rest'. split; auto. split; auto.
    assert (L : length vs' = length vs) by (apply Forall2_len in A, A'; congruence). rewrite L. exact C.
Qed.

Definition running (S : store) (t : thread H) : Prop :=
  typed S t /\ length (t_stk t) <= stack_size /\
  exists cur A top rest, st (t_pc t) cur A /\ t_stk t = top ++ rest /\ length rest = t_fp t /\ Forall2 (has S) (fst A) top /\
    has_opt t0 S (snd A) (t_ret t) /\ frames_ty S cur rest (t_frames t).
(** the function called by the host has returned *)
Definition left_it (S : store) (t : thread H) : Prop :=
  typed S t /\ length (t_frames t) < d /\ has_opt t0 S (ret_of t0 c0) (t_ret t) /\ exists x, t_stk t = x ++ base.
Definition halted (S : store) (t : thread H) : Prop := typed S t /\ (t_pc t < 0)%Z /\ (c0 <> None -> d = 0).

Lemma pushed t v t' : push M t v = Ok t' -> same_mem t t' /\ t_ret t' = t_ret t /\ t_stk t' = v :: t_stk t /\ length (t_stk t') <= stack_size.
Proof. unfold push, room. rewrite HR. destruct (Nat.leb_spec (Datatypes.S (length (t_stk t))) stack_size); intros E; inversion E; subst. cbn. repeat split; auto. Qed.

(** *** Local variables *)
Lemma find_local S cur A k g top rest frs i v : slot_tag t0 cur A k g -> length (top ++ rest) <= stack_size ->
  (i = local_slot (length rest) (k mod 2^32)%Z \/ ((0 <= k)%Z /\ i = length rest + Z.to_nat k)) ->
  Forall2 (has S) A top -> frames_ty S cur rest frs -> slot (top ++ rest) i = Ok v -> has S g v.
Proof.
  intros Sl L Ei Ft Fr Es. unfold slot in Es. destruct (Nat.ltb_spec i (length (top ++ rest))) as [Li|]; [|discriminate].
  destruct (nth_error _ _) as [u|] eqn:N; [|discriminate]. injection Es as ->. rewrite app_length in *. unfold stack_size in L.
  assert (Ei' : Z.of_nat i = (Z.of_nat (length rest) + k)%Z \/ (k < - Z.of_nat (length rest))%Z \/ (2^31 <= k)%Z).
  { destruct Ei as [->|(K & ->)]; [|lia]. destruct (Z.ltb_spec k (- Z.of_nat (length rest))); auto. destruct (Z.leb_spec (2^31) k); auto. left.
    unfold local_slot. rewrite Zplus_mod_idemp_r, Z.mod_small, Z2Nat.id by lia. reflexivity. }
  destruct Sl as [(j & S1 & -> & -> & Nj)|(j & x & -> & Nj & Tj)].
  - assert (Lj : j < length (locals_of t0 cur)) by (apply nth_error_Some; intros X; rewrite nth_error_map, X in Nj; discriminate).
    apply Forall2_app_inv_l in Ft as (t1 & t2 & F1 & F2 & ->). rewrite app_length in L, Li, N.
    assert (L2 : length t2 = length (locals_of t0 cur)) by (apply Forall2_len in F2; unfold lbase in F2; rewrite rev_length, map_length in F2; auto).
    assert (Ei2 : i = length rest + j) by lia. subst i.
    replace (length t1 + length t2 + length rest - 1 - (length rest + j)) with (length t1 + (length t2 - 1 - j)) in N by lia.
    rewrite nth_error_app1 in N by (rewrite app_length; lia). rewrite nth_error_app2 in N by lia.
    replace (length t1 + (length t2 - 1 - j) - length t1) with (length t2 - 1 - j) in N by lia.
    eapply Forall2_nth; [exact F2| |exact N]. unfold lbase. rewrite L2.
    rewrite <- (map_length (ltag) (locals_of t0 cur)). rewrite nth_rev by (rewrite map_length; lia). exact Nj.
  - destruct (frames_args _ _ _ _ Fr) as (vs & rest' & -> & Ar & _). pose proof (Forall2_len _ _ _ Ar) as La.
    rewrite app_length, rev_length in *. assert (Lj : j < length (params_of t0 cur)) by (apply nth_error_Some; congruence).
    assert (Ei2 : i = length rest' + j) by lia. subst i.
    replace (length top + (length vs + length rest') - 1 - (length rest' + j)) with (length top + (length vs - 1 - j)) in N by lia.
    rewrite nth_error_app2 in N by lia. replace (length top + (length vs - 1 - j) - length top) with (length vs - 1 - j) in N by lia.
    rewrite nth_error_app1 in N by (rewrite rev_length; lia). rewrite nth_rev in N by lia.
    exact (Forall2_nth _ _ _ _ _ _ Ar Nj N _ Tj).
Qed.
Lemma put_local S cur A k g top rest frs s v : slot_tag t0 cur A k g -> length (top ++ rest) <= stack_size ->
  Forall2 (has S) A top -> frames_ty S cur rest frs -> has S g v -> set_slot (top ++ rest) (local_slot (length rest) (k mod 2^32)%Z) v = Ok s ->
  exists top' rest', s = top' ++ rest' /\ length rest' = length rest /\ Forall2 (has S) A top' /\ frames_ty S cur rest' frs.
Proof.
  intros Sl L Ft Fr Hv Es. unfold set_slot in Es. set (i := local_slot _ _) in *. destruct (Nat.ltb_spec i (length (top ++ rest))) as [Li|]; [|discriminate].
  injection Es as <-. rewrite app_length in *. unfold stack_size in L.
  assert (Ei' : Z.of_nat i = (Z.of_nat (length rest) + k)%Z \/ (k < - Z.of_nat (length rest))%Z \/ (2^31 <= k)%Z).
  { destruct (Z.ltb_spec k (- Z.of_nat (length rest))); auto. destruct (Z.leb_spec (2^31) k); auto. left.
    unfold i, local_slot. rewrite Zplus_mod_idemp_r, Z.mod_small, Z2Nat.id by lia. reflexivity. }
  assert (U1 : forall (a b : list value) j, j < length a -> update (a ++ b) j v = update a j v ++ b).
  { intros a b j Lj. unfold update. rewrite firstn_app, skipn_app. replace (j - length a) with 0 by lia. rewrite firstn_O, app_nil_r.
    destruct (skipn j a) eqn:Sk; [|cbn; rewrite <- app_assoc; reflexivity]. pose proof (skipn_length j a). rewrite Sk in *. cbn in *. lia. }
  assert (U2 : forall (a b : list value) j, update (a ++ b) (length a + j) v = a ++ update b j v).
  { induction a as [|x a IH]; intros b j; cbn [app length Nat.add]; auto. change (update (x :: a ++ b) (Datatypes.S (length a + j)) v) with (x :: update (a ++ b) (length a + j) v). rewrite IH. reflexivity. }
  destruct Sl as [(j & S1 & -> & -> & Nj)|(j & x & -> & Nj & Tj)].
  - assert (Lj : j < length (locals_of t0 cur)) by (apply nth_error_Some; intros X; rewrite nth_error_map, X in Nj; discriminate).
    apply Forall2_app_inv_l in Ft as (t1 & t2 & F1 & F2 & ->). rewrite app_length in L, Li.
    assert (L2 : length t2 = length (locals_of t0 cur)) by (apply Forall2_len in F2; unfold lbase in F2; rewrite rev_length, map_length in F2; auto).
    assert (Ei2 : i = length rest + j) by lia. rewrite Ei2, app_length.
    replace (length t1 + length t2 + length rest - 1 - (length rest + j)) with (length t1 + (length t2 - 1 - j)) by lia.
    rewrite U1 by (rewrite app_length; lia). rewrite U2. exists (t1 ++ update t2 (length t2 - 1 - j) v), rest. split; auto. split; auto. split; auto.
    apply Forall2_app; auto. eapply Forall2_update; [exact F2| |exact Hv]. unfold lbase. rewrite L2.
    rewrite <- (map_length (ltag) (locals_of t0 cur)). rewrite nth_rev by (rewrite map_length; lia). exact Nj.
  - destruct (frames_args _ _ _ _ Fr) as (vs & rest' & -> & Ar & Re). pose proof (Forall2_len _ _ _ Ar) as La.
    rewrite app_length, rev_length in *. assert (Lj : j < length (params_of t0 cur)) by (apply nth_error_Some; congruence).
    assert (Ei2 : i = length rest' + j) by lia. rewrite Ei2.
    replace (length top + (length vs + length rest') - 1 - (length rest' + j)) with (length top + (length vs - 1 - j)) by lia.
    rewrite U2. rewrite U1 by (rewrite rev_length; lia). exists top, (update (rev vs) (length vs - 1 - j) v ++ rest'). split; auto. split; [rewrite app_length, update_length, rev_length; auto|]. split; auto.
    rewrite <- (rev_involutive (update (rev vs) _ v)). apply Re. rewrite <- (rev_involutive (params_of t0 cur)). apply Forall2_rev.
    eapply Forall2_update with (x := x).
    + apply Forall2_rev. exact Ar.
    + rewrite <- La. rewrite nth_rev by lia. exact Nj.
    + intros g' E. assert (g' = g) by congruence. subst. exact Hv.
Qed.

(** *** Straight instructions *)
Lemma exec_typed callf (CK : calls_ok callf) cur i A B S t t' top rest :
  ity t0 cur i A B -> typed S t -> length (t_stk t) <= stack_size -> t_stk t = top ++ rest -> length rest = t_fp t ->
  Forall2 (has S) (fst A) top -> has_opt t0 S (snd A) (t_ret t) -> frames_ty S cur rest (t_frames t) -> exec M callf i t = Ok t' ->
  exists S' top' rest', more S S' /\ typed S' t' /\ length (t_stk t') <= stack_size /\ t_stk t' = top' ++ rest' /\ length rest' = length rest /\
    Forall2 (has S') (fst B) top' /\ has_opt t0 S' (snd B) (t_ret t') /\ frames_ty S' cur rest' (t_frames t).
Proof.
  intros Ty T L Es Lr Ft Hr Fr E.
  assert (Push : forall v g Sg r, push M t v = Ok t' -> fst A = Sg -> has S g v -> B = (g :: Sg, r) -> r = None ->
    exists S' top' rest', more S S' /\ typed S' t' /\ length (t_stk t') <= stack_size /\ t_stk t' = top' ++ rest' /\ length rest' = length rest /\
    Forall2 (has S') (fst B) top' /\ has_opt t0 S' (snd B) (t_ret t') /\ frames_ty S' cur rest' (t_frames t)).
  { intros v g Sg r P EA Hv -> ->. apply pushed in P as (Sm & _ & Ek & Lk). exists S, (v :: top), rest. split; [apply more_refl|].
    split; [eapply typed_same; eauto|]. split; auto. split; [rewrite Ek, Es; auto|]. split; auto. cbn [fst snd]. subst Sg. split; [constructor; auto|].
    split; auto. intros ? E'. discriminate. }
  assert (Repl : forall v g (Sg : list tag) top1, t' = with_stk t (v :: top1 ++ rest) -> Forall2 (has S) Sg top1 -> has S g v -> B = (g :: Sg, None) -> length (v :: top1 ++ rest) <= length (t_stk t) ->
    exists S' top' rest', more S S' /\ typed S' t' /\ length (t_stk t') <= stack_size /\ t_stk t' = top' ++ rest' /\ length rest' = length rest /\
    Forall2 (has S') (fst B) top' /\ has_opt t0 S' (snd B) (t_ret t') /\ frames_ty S' cur rest' (t_frames t)).
  { intros v g Sg top1 -> F1 Hv -> L1. exists S, (v :: top1), rest. split; [apply more_refl|].
    split; [eapply typed_same; [|exact T]; repeat split|]. split; [cbn [t_stk with_stk]; lia|]. split; auto. split; auto. cbn [fst snd]. split; [constructor; auto|].
    split; auto. intros ? E'. discriminate. }
  destruct Ty; cbn [exec] in E; cbn [fst snd] in *; try (eapply Push; [exact E|reflexivity| |reflexivity|reflexivity]; constructor; auto; fail).
  - (* nulls *) unfold room in E. rewrite HR in E. destruct (Nat.leb_spec (Z.to_nat n + length (t_stk t)) stack_size); inversion E; subst.
    exists S, (repeat VNull (Z.to_nat n) ++ top), rest. split; [apply more_refl|]. split; [eapply typed_same; [|exact T]; repeat split|].
    cbn [t_stk with_stk]. split; [rewrite app_length, repeat_length; auto|]. split; [rewrite Es, app_assoc; auto|]. split; auto.
    split; [|split; auto; intros ? E'; discriminate]. apply Forall2_app; auto. rewrite H0. clear. induction gs; constructor; auto. constructor.
  - destruct (_ <? _)%Z; [discriminate|]. destruct (nth_error _ _); [|discriminate]. eapply Push; [exact E|reflexivity| |reflexivity|reflexivity]; constructor.
  - (* struct *) unfold oassert in E. destruct (_ <? _)%Z; [|discriminate]. destruct (Nat.leb_spec (Z.to_nat n) (length (t_stk t))) as [Ln|]; [|discriminate].
    apply Forall2_app_inv_l in Ft as (t1 & t2 & F1 & F2 & ->). pose proof (Forall2_len _ _ _ F1) as L1. rewrite rev_length in L1. pose proof (Forall2_len _ _ _ H2) as L2.
    assert (Ea : top_args (t_stk t) (Z.to_nat n) = rev t1).
    { unfold top_args. f_equal. rewrite Es, H1, L2, L1, <- app_assoc, firstn_app, Nat.sub_diag, firstn_all, firstn_O, app_nil_r. reflexivity. }
    assert (Eb : skipn (Z.to_nat n) (t_stk t) = t2 ++ rest).
    { rewrite Es, H1, L2, L1, <- app_assoc, skipn_app, Nat.sub_diag, skipn_all. reflexivity. }
    rewrite Ea, Eb in E. destruct (alloc t (BStruct (rev t1))) as [o u] eqn:Al.
    assert (Ob : object_typed t0 S id (BStruct (rev t1))).
    { exists fs, (rev t1). split; auto. split; auto. assert (F3 : Forall2 (has S) gs (rev t1)) by (apply Forall2_rev in F1; rewrite rev_involutive in F1; exact F1).
      clear - H2 F3. revert F3. generalize (rev t1). induction H2; intros ws F3; inversion F3; subst; constructor; auto. }
    destruct (typed_struct _ _ _ _ _ _ T Ob Al) as (S' & Mo & So & T').
    assert (Eu : t_stk (with_stk u (t2 ++ rest)) = t2 ++ rest /\ t_ret u = t_ret t) by (injection Al as _ <-; auto).
    apply pushed in E as (Sm & Er & Ek & Lk). exists S', (VStruct o :: t2), rest. split; auto. split; [eapply typed_same; [|exact T']; exact Sm|]. split; auto.
    split; [rewrite Ek; reflexivity|]. split; auto. split; [|split; [intros ? E'; discriminate|eapply frames_more; eauto]].
    constructor; [|eapply all_more; eauto]. constructor; auto. eapply sfields_kind; eauto.
  - (* get field *) inversion Ft as [|? v ? t1 Hv F1]; subst. rewrite Es in E. cbn [app] in E. destruct (has_struct_inv _ _ _ _ H0 Hv) as [->|(o & -> & So)]; [discriminate|].
    destruct (hget (t_heap t) o) as [[oi om []]|] eqn:Hg; try discriminate. destruct (nth_error fields (Z.to_nat k)) as [x|] eqn:N; inversion E; subst.
    apply hget_spec in Hg as (I & Eo). cbn in Eo. subst oi. destruct (tt_heap _ _ _ _ _ T _ _ I So) as (fs' & vs & Sf & Eb & F2). cbn in Eb. injection Eb as <-. rewrite H0 in Sf. injection Sf as <-.
    pose proof (Forall2_nth _ _ _ _ _ _ F2 H1 N) as Hx. cbn in Hx. eapply (Repl x _ _ t1); eauto. rewrite Es. cbn. lia.
  - (* set field *) inversion Ft as [|? v ? t1 Hv F1]; subst. inversion F1 as [|? u ? t2 Hu F2]; subst. rewrite Es in E. cbn [app] in E. destruct (has_struct_inv _ _ _ _ H0 Hv) as [->|(o & -> & So)]; [discriminate|].
    destruct (hget (t_heap t) o) as [[oi om []]|] eqn:Hg; try discriminate. destruct (_ <? _) eqn:Lk; inversion E; subst.
    exists S, t2, rest. split; [apply more_refl|]. split.
    { eapply typed_set with (t := with_stk t (t2 ++ rest)) (s := oi) (vs := fields); [eapply typed_same; [|exact T]; repeat split|exact So|exact H0|exact H1|apply H2; exact Hu|right; exists om; exact Hg|reflexivity]. }
    cbn. split; [rewrite Es in L; cbn in L; lia|]. repeat (split; auto). intros ? E'; discriminate.
  - (* operators *) inversion Ft as [|? v ? t1 Hv F1]; subst. inversion F1 as [|? u ? t2 Hu F2]; subst. rewrite Es in E. cbn [app] in E. obinv E. inversion E; subst.
    eapply (Repl r0 _ _ t2); eauto; [eapply bin_typed; [exact H0|exact Hu|exact Hv|exact Em]|]. rewrite Es. cbn. lia.
  - inversion Ft as [|? v ? t1 Hv F1]; subst. rewrite Es in E. cbn [app] in E. obinv E. inversion E; subst.
    eapply (Repl r0 _ _ t1); eauto; [|rewrite Es; cbn; lia]. apply has_int_inv in Hv as [->|(z & ->)]; [discriminate|]. cbn in Em. unfold int64_result in Em. destruct (in_int64 _); inversion Em; constructor.
  - inversion Ft as [|? v ? t1 Hv F1]; subst. rewrite Es in E. cbn [app] in E. obinv E. inversion E; subst.
    eapply (Repl r0 _ _ t1); eauto; [|rewrite Es; cbn; lia]. apply has_int_inv in Hv as [->|(z & ->)]; [discriminate|]. cbn in Em. unfold int64_result in Em. destruct (in_int64 _); inversion Em; constructor.
  - inversion Ft as [|? v ? t1 Hv F1]; subst. inversion F1 as [|? u ? t2 Hu F2]; subst. rewrite Es in E. cbn [app] in E. obinv E. inversion E; subst.
    eapply (Repl (VBool r0) _ _ t2); eauto; [constructor|]. rewrite Es. cbn. lia.
  - inversion Ft as [|? v ? t1 Hv F1]; subst. rewrite Es in E. cbn [app] in E. obinv E. inversion E; subst.
    eapply (Repl (VBool (negb r0)) _ _ t1); eauto; [constructor|]. rewrite Es. cbn. lia.
  - (* set global *) inversion Ft as [|? v ? t1 Hv F1]; subst. unfold pop in E. rewrite Es in E. cbn [app obind] in E.
    assert (Gt : global_typed t0 S (Z.to_nat k) v). { destruct H0 as (y & b & I & Eb). apply H1 in Hv. intros y' b' g1 I' Eb'. pose proof (HG _ _ _ _ _ _ _ I I' Eb Eb'). subst y'. congruence. }
    destruct (typed_glob S (with_stk t (t1 ++ rest)) k v t') as (T' & Ek); auto; [eapply typed_same; [|exact T]; repeat split|].
    exists S, t1, rest. split; [apply more_refl|]. split; auto. rewrite Ek. cbn. split; [rewrite Es in L; cbn in L; lia|]. repeat (split; auto). intros ? E'; discriminate.
  - (* get global *) obinv E. unfold glob_at in Em. destruct (t_globs t) as [gl|] eqn:Eg; [|discriminate]. destruct (nth_error gl (Z.to_nat k)) as [x|] eqn:N; inversion Em; subst.
    eapply Push; [exact E|reflexivity| |reflexivity|reflexivity]. destruct H0 as (y & b & I & Eb). eapply tt_globs; eauto.
  - (* foreign call *) destruct (Nat.leb_spec (Z.to_nat n) (length (t_stk t))) as [Ln|]; [|discriminate]. rewrite (HX _ _ _ _ _ _ H0 H1) in E.
    apply Forall2_app_inv_l in Ft as (t1 & t2 & F1 & F2 & ->). pose proof (Forall2_len _ _ _ F1) as L1. rewrite rev_length in L1.
    assert (Ea : top_args (t_stk t) (Z.to_nat n) = rev t1).
    { unfold top_args. f_equal. rewrite Es, H2, L1, <- app_assoc, firstn_app, Nat.sub_diag, firstn_all, firstn_O, app_nil_r. reflexivity. }
    rewrite Ea in E. obinv E. destruct r0 as [v u]. obinv E. inversion E; subst t'.
    assert (Fa : foreign_args t0 S ps va (rev t1)).
    { destruct H3 as (g1 & g2 & -> & F3 & Va). assert (F4 : Forall2 (has S) (g1 ++ g2) (rev t1)) by (apply Forall2_rev in F1; rewrite rev_involutive in F1; exact F1).
      apply Forall2_app_inv_l in F4 as (v1 & v2 & F5 & F6 & ->). exists v1, v2. split; auto. split.
      - clear - F3 F5. revert v1 F5. induction F3; intros v1 F5; inversion F5; subst; constructor; auto.
      - intros X. rewrite (Va X) in F6. inversion F6. reflexivity. }
    destruct (fprog_typed callf CK g _ _ _ _ _ (ph_foreign _ _ _ _ _ Ph _ _ _ _ _ _ S _ H0 H1 Fa) T Em) as (S' & Mo & T' & Hv & Ek).
    rewrite Ek in Em0. unfold cut in Em0. rewrite Es, H2, L1 in Em0. rewrite !app_length in Em0. destruct (Nat.leb_spec (length t1 + length t2 + length rest - length t1) (length t1 + length t2 + length rest)); [|lia].
    injection Em0 as <-.
    replace (length t1 + length t2 + length rest - (length t1 + length t2 + length rest - length t1)) with (length t1) by lia.
    rewrite <- app_assoc, skipn_app, Nat.sub_diag, skipn_all. cbn [app skipn].
    exists S', t2, rest. split; auto. split; [eapply typed_same; [|exact T']; repeat split|]. cbn. split; [rewrite Es in L; rewrite !app_length in *; lia|]. repeat (split; auto).
    + eapply all_more; eauto.
    + intros g9 E'. destruct H4 as [->| ->]; [discriminate|]. injection E' as <-. exact Hv.
    + eapply frames_more; eauto.
  - (* locals *) obinv E. subst k'. rewrite Es, <- Lr in Em. eapply Push; [exact E|reflexivity| |reflexivity|reflexivity]. eapply find_local; [exact H0| |left; reflexivity|exact Ft|exact Fr|exact Em]. rewrite <- Es. exact L.
  - obinv E. rewrite Es, <- Lr in Em. eapply Push; [exact E|reflexivity| |reflexivity|reflexivity]. eapply find_local; [exact H0| |right; split; [exact H1|reflexivity]|exact Ft|exact Fr|exact Em]. rewrite <- Es. exact L.
  - inversion Ft as [|? v ? t1 Hv F1]; subst. unfold pop in E. rewrite Es in E. cbn [app obind t_stk with_stk t_fp] in E. obinv E. inversion E; subst. rewrite <- Lr in Em.
    assert (L1 : length (t1 ++ rest) <= stack_size) by (rewrite Es in L; cbn [app length] in L; lia).
    destruct (put_local _ _ _ _ _ _ _ _ _ _ H0 L1 F1 Fr (H2 _ _ Hv) Em) as (top' & rest' & -> & Lr' & Ft' & Fr').
    exists S, top', rest'. split; [apply more_refl|]. split; [eapply typed_same; [|exact T]; repeat split|].
    assert (L2 : length (top' ++ rest') = length (t1 ++ rest)) by (unfold set_slot in Em; destruct (_ <? _); inversion Em as [Q]; rewrite update_length; auto).
    cbn [t_stk with_stk t_ret]. split; [rewrite Es in L; cbn [app length] in L; lia|]. repeat (split; auto). intros ? E'; discriminate.
  - eapply Push; [exact E|reflexivity| |reflexivity|reflexivity]. apply Hr. reflexivity.
Qed.

(** *** One cycle *)
Lemma st_at S t : running S t -> exists cur A i next, st (t_pc t) cur A /\ at_instr M t i next /\ step_ok t0 cur i next A (up t0 (fun pc' B => st pc' cur B)).
Proof.
  intros (_ & _ & cur & A & top & rest & Hs & _). destruct (ty_step _ _ _ _ Ht _ _ _ Hs) as (i & next & D & Sp). exists cur, A, i, next. split; auto. split; auto. split; auto.
  unfold decode, byte_at in D. destruct (Z.ltb_spec (t_pc t) 0); [discriminate|lia].
Qed.
Lemma straight_ity cur i next A (K : Z -> ast -> Prop) : straight i = true -> step_ok t0 cur i next A K -> exists B, ity t0 cur i A B /\ K next B.
Proof. intros St. destruct i; try discriminate St; cbn [step_ok]; auto. Qed.
Lemma up_st S cur next B top r : up t0 (fun pc' B => st pc' cur B) next B -> Forall2 (has S) (fst B) top -> has_opt t0 S (snd B) r ->
  exists B', st next cur B' /\ Forall2 (has S) (fst B') top /\ has_opt t0 S (snd B') r.
Proof.
  intros (B' & (S1 & S2) & Q) F2 Hr. exists B'. split; auto. split; [eapply subs_has; eauto|]. destruct S2 as [->| ->]; auto. intros g E. discriminate.
Qed.

Definition outcome_ok (S : store) (t : thread H) : Prop := running S t \/ left_it S t \/ halted S t.
Lemma outcome_same S t t' : same_mem t t' -> t_pc t' = t_pc t -> t_fp t' = t_fp t -> t_stk t' = t_stk t -> t_frames t' = t_frames t -> t_ret t' = t_ret t ->
  outcome_ok S t -> outcome_ok S t'.
Proof.
  intros Sm E1 E2 E3 E4 E5 [(T & L & cur & A & top & rest & X)|[(T & X)|(T & X)]].
  - left. split; [eapply typed_same; eauto|]. rewrite E3. split; auto. exists cur, A, top, rest. rewrite E1, E2, E4, E5. exact X.
  - right. left. split; [eapply typed_same; eauto|]. rewrite E3, E4, E5. exact X.
  - right. right. split; [eapply typed_same; eauto|]. rewrite E1. exact X.
Qed.
Lemma outcome_gc S t t' : gc M t = Ok t' -> outcome_ok S t -> outcome_ok S t'.
Proof.
  intros G. destruct (gc_frame _ _ _ G) as (E1 & E2 & E3 & E4 & E5 & E6 & E7).
  intros [(T & L & cur & A & top & rest & X)|[(T & X)|(T & X)]].
  - left. split; [eapply typed_gc; eauto|]. rewrite E3. split; auto. exists cur, A, top, rest. rewrite E1, E2, E4, E5. exact X.
  - right. left. split; [eapply typed_gc; eauto|]. rewrite E3, E4, E5. exact X.
  - right. right. split; [eapply typed_gc; eauto|]. rewrite E1. exact X.
Qed.

Lemma pop_typed S t t' cur top rest : typed S t -> length (t_stk t) <= stack_size -> t_stk t = top ++ rest -> length rest = t_fp t -> frames_ty S cur rest (t_frames t) ->
  has_opt t0 S (ret_of t0 cur) (t_ret t) -> pop_indir t = Ok t' -> outcome_ok S t'.
Proof.
  intros T L Es Lr Fr Hr E. unfold pop_indir in E. destruct (t_frames t) as [|f fr] eqn:Ef; [discriminate|].
  destruct (Nat.leb_spec (f_nargs f) (t_fp t)) as [Ln|]; [|discriminate].
  destruct (cut (t_stk t) (t_fp t)); try discriminate. destruct (cut (t_stk t) (t_fp t - f_nargs f)) eqn:Ec; inversion E; subst t'. clear E.
  unfold cut in Ec. destruct (_ <=? _); [|discriminate]. injection Ec as <-. cbn [frames_ty] in Fr.
  destruct Fr as (vs & rest' & -> & Ar & C). rewrite app_length, rev_length in Lr.
  assert (Sk : f_nargs f <= length vs -> exists x, skipn (length (t_stk t) - (t_fp t - f_nargs f)) (t_stk t) = x ++ rest' /\ length x = length vs - f_nargs f).
  { intros Lf. rewrite Es, app_assoc. rewrite !app_length, rev_length. rewrite <- Lr. rewrite skipn_app. rewrite app_length, rev_length.
    replace (length top + length vs + length rest' - (length vs + length rest' - f_nargs f) - (length top + length vs)) with 0 by lia. cbn [skipn].
    eexists. split; [reflexivity|]. rewrite skipn_length, app_length, rev_length. lia. }
  assert (Lk : length (skipn (length (t_stk t) - (t_fp t - f_nargs f)) (t_stk t)) <= stack_size) by (rewrite skipn_length; lia).
  destruct C as [(Ld & -> & -> & Lf)|(N & En & cur' & B & top' & rest'' & X1 & X2 & X3 & X4 & X5 & X6)].
  - right. left. split; [eapply typed_same; [|exact T]; repeat split|]. cbn [t_frames t_ret t_stk with_ctl]. cbn [length] in Ld. split; [lia|]. split; auto. destruct (Sk Lf) as (x & -> & _). eauto.
  - left. split; [eapply typed_same; [|exact T]; repeat split|]. cbn [t_stk with_ctl t_pc t_fp t_ret t_frames]. split; auto.
    destruct (Sk ltac:(lia)) as (x & Ex & Lx). exists cur', B, top', rest''. split; auto. split; [destruct x; [|cbn in Lx; lia]; rewrite Ex, X2; reflexivity|]. split; auto. split; auto. split; auto.
    destruct X5 as [->| ->]; auto. intros g E. discriminate.
Qed.

Lemma step_typed callf (CK : calls_ok callf) (CC : forall t f a v t', callf t f a = Ok (v, t') -> ctl_same t t') S t b t' : running S t -> cycle M callf poll t = Ok (b, t') ->
  b = true /\ exists S', more S S' /\ outcome_ok S' t'.
Proof.
  intros R E. destruct (st_at _ _ R) as (cur1 & A1 & i & next & _ & (P & D) & _).
  destruct R as (T & L & cur & A & top & rest & Hs & Es & Lr & Ft & Hr & Fr).
  destruct (ty_step _ _ _ _ Ht _ _ _ Hs) as (i' & next' & D' & Sp). rewrite D in D'. injection D' as <- <-.
  unfold cycle in E. destruct (Z.ltb_spec (t_pc t) 0); [lia|]. rewrite D in E. cbn [obind] in E. obinv E. obinv E. inversion E; subst b t'. split; auto.
  assert (W : exists S', more S S' /\ outcome_ok S' r).
  2:{ destruct W as (S' & Mo & W). exists S'. split; auto. destruct (poll _ _); [eapply outcome_gc; eauto|]. inversion Em0; subst; auto. }
  clear E Em0. rename Em into E. set (t1 := with_pc t next) in *.
  assert (T1 : typed S t1) by (eapply typed_same; [|exact T]; repeat split).
  destruct (straight i) eqn:St.
  { destruct (straight_ity _ _ _ _ _ St Sp) as (B & Ty & K). destruct (exec_straight M _ CC _ _ _ St E) as (E1 & E2 & E3).
    destruct (exec_typed callf CK _ _ _ _ _ _ _ _ _ Ty T1 L Es Lr Ft Hr Fr E) as (S' & top' & rest' & Mo & T' & L' & Es' & Lr' & Ft' & Hr' & Fr').
    exists S'. split; auto. left. split; auto. split; auto. destruct (up_st _ _ _ _ _ _ K Ft' Hr') as (B' & Hs' & Ft2 & Hr2).
    exists cur, B', top', rest'. rewrite E1, E2, E3. cbn [t1 with_pc t_pc t_fp t_frames]. split; auto. split; auto. split; [congruence|]. auto. }
  exists S. split; [apply more_refl|].
  destruct i; try discriminate St; cbn [exec] in E; cbn [step_ok] in Sp.
  - inversion E; subst. destruct (up_st S _ _ _ top (t_ret t) Sp Ft ltac:(intros g X; discriminate)) as (B' & Hs' & Ft2 & Hr2). left. split; [eapply typed_same; [|exact T1]; repeat split|]. split; auto. exists cur, B', top, rest. auto 8.
  - destruct Sp as (Sg & EA & K1 & K2). rewrite EA in Ft. inversion Ft as [|? v ? top2 Hv F2]; subst. unfold pop in E. cbn [t1 t_stk with_pc] in E. rewrite Es in E. cbn [app obind] in E. obinv E.
    injection E as <-. left. assert (Lk : length (top2 ++ rest) <= stack_size) by (rewrite Es in L; cbn [app length] in L; lia). destruct r1.
    + destruct (up_st S _ _ _ top2 (t_ret t) K2 F2 ltac:(intros g X; discriminate)) as (B' & Hs' & Ft2 & Hr2). split; [eapply typed_same; [|exact T1]; repeat split|]. split; [exact Lk|]. exists cur, B', top2, rest. auto 8.
    + destruct (up_st S _ _ _ top2 (t_ret t) K1 F2 ltac:(intros g X; discriminate)) as (B' & Hs' & Ft2 & Hr2). split; [eapply typed_same; [|exact T1]; repeat split|]. split; [exact Lk|]. exists cur, B', top2, rest. auto 8.
  - destruct Sp as (fid & nm & args & locals & ret & gs & Sg & r' & Sy & EA & F2 & En & Er & K). obinv E. unfold push_indir, oassert in Em. destruct (_ <? _); [|discriminate]. injection Em as <-.
    destruct (ty_fun _ _ _ _ Ht _ _ _ _ _ _ Sy) as (e & Ne & He). rewrite Ne in E. inversion E; subst r. left. split; [eapply typed_same; [|exact T1]; repeat split|]. split; [exact L|].
    exists (Some fid), ([], None), [], (t_stk t). cbn [t_pc t_stk t_fp t_frames t_ret with_pc with_ctl t1 app fst snd]. split; auto. split; auto. split; auto. split; auto. split; [intros g X; discriminate|].
    rewrite EA in Ft. apply Forall2_app_inv_l in Ft as (va & top2 & F3 & F4 & ->). cbn [frames_ty]. exists (rev va), (top2 ++ rest). rewrite rev_involutive. split; [rewrite Es, app_assoc; auto|].
    assert (Pa : params_of t0 (Some fid) = args) by (unfold params_of; rewrite Sy; auto). rewrite Pa.
    assert (F3' : Forall2 (has S) gs (rev va)) by (apply Forall2_rev in F3; rewrite rev_involutive in F3; exact F3).
    split. { clear - F2 F3'. revert F3'. generalize (rev va). unfold args_typed. induction F2; intros ws F3; inversion F3; subst; constructor; auto. intros g1 X. match goal with Q : forall p, _ = Some p -> sub _ _ _, Hh : TypeSpec.has _ _ _ _ |- _ => exact (Q _ X _ _ Hh) end. }
    right. split; [discriminate|]. cbn [f_nargs f_pc f_fp]. split; [apply Forall2_len in F2, F3'; congruence|].
    destruct K as (B' & (B1 & B2) & Hs'). exists cur, B', top2, rest. split; auto. split; auto. split; auto. split; [eapply subs_has; eauto|]. split; auto.
    cbn [snd] in B2. unfold ret_of. rewrite Sy. destruct B2 as [->| ->]; auto.
  - eapply pop_typed; [| | | | | |exact E]; cbn [t_stk with_ret t_fp t_frames t_ret t1 with_pc]; eauto; [eapply typed_same; [|exact T1]; repeat split|]. intros g X. constructor.
  - destruct Sp as (g & Sg & rt & EA & Er & Sb). rewrite EA in Ft. inversion Ft as [|? v ? top2 Hv F2]; subst. unfold pop in E. cbn [t1 t_stk with_pc] in E. rewrite Es in E. cbn [app obind] in E.
    assert (Lk : length (top2 ++ rest) <= stack_size) by (rewrite Es in L; cbn [app length] in L; lia).
    eapply pop_typed with (cur := cur) (top := top2) (rest := rest); [| | | | | |exact E]; cbn [t_stk with_ret t_fp t_frames t_ret t1 with_pc with_stk]; eauto; [eapply typed_same; [|exact T1]; repeat split|].
    intros g' X. rewrite Er in X. injection X as <-. apply Sb. exact Hv.
  - inversion E; subst. right. right. split; [eapply typed_same; [|exact T1]; repeat split|]. split; [cbn; lia|]. intros N. eapply frames_none; eauto.
Qed.

Lemma running_operands S t : running S t -> operands_ok M t.
Proof.
  intros R i next (P & D). destruct R as (T & L & cur & A & top & rest & Hs & Es & Lr & Ft & Hr & Fr).
  destruct (ty_step _ _ _ _ Ht _ _ _ Hs) as (i' & next' & D' & Sp). rewrite D in D'. injection D' as <- <-. rewrite Es.
  assert (St : forall id fs k f v, sfields t0 id = Some fs -> nth_error fs k = Some f -> has S (GSym id) v -> struct_or_null (t_heap t) k v).
  { intros id fs k f v Sf Nf Hv. destruct (has_struct_inv _ _ _ _ Sf Hv) as [->|(o & -> & So)]; [left; auto|]. right. exists o. split; auto. intros ob I Eo. subst o.
    destruct (tt_heap _ _ _ _ _ T _ _ I So) as (fs' & vs & Sf' & Eb & F2). rewrite Sf in Sf'. injection Sf' as <-. exists vs. split; auto. apply Forall2_len in F2. rewrite <- F2. apply nth_error_Some. congruence. }
  destruct i; cbn [step_ok] in Sp; try exact Logic.I.
  - destruct Sp as (B & Ty & _). inversion Ty; subst. cbn [fst] in Ft. inversion Ft; subst. cbn. eauto.
  - destruct Sp as (B & Ty & _). inversion Ty; subst. cbn [fst] in Ft. inversion Ft as [|? ? ? ? ? F1]; subst. inversion F1; subst. cbn. eauto.
  - destruct Sp as (B & Ty & _). inversion Ty; subst. cbn [fst] in Ft. inversion Ft as [|? ? ? ? ? F1]; subst. inversion F1; subst. cbn. unfold bin_ty in *. destruct (is_narrow o).
    + match goal with X : _ /\ _ /\ _ |- _ => destruct X as (-> & -> & _) end. split; eapply has_int_inv; eauto.
    + match goal with X : _ /\ _ /\ _ |- _ => destruct X as (? & ? & _) end. split; [eapply (num_inv S a)|eapply (num_inv S b)]; assumption.
  - destruct Sp as (B & Ty & _). inversion Ty; subst. cbn [fst] in Ft. inversion Ft; subst. cbn. eapply has_int_inv; eauto.
  - destruct Sp as (B & Ty & _). inversion Ty; subst. cbn [fst] in Ft. inversion Ft; subst. cbn. eapply has_int_inv; eauto.
  - destruct Sp as (B & Ty & _). inversion Ty; subst. cbn [fst] in Ft. inversion Ft; subst. cbn. eapply has_bool_inv; eauto.
  - destruct Sp as (Sg & EA & _). rewrite EA in Ft. inversion Ft; subst. cbn. eapply has_bool_inv; eauto.
Qed.
Lemma halted_operands t : (t_pc t < 0)%Z -> operands_ok M t.
Proof. intros N i next (P & _). lia. Qed.
End Floor.

(** ** Calls from the host *)
Lemma enter_typed S t f args t1 params locals r : typed S t -> fun_sig t0 (Z.to_nat f) params locals r -> args_typed t0 S params args -> enter_call M t f args = Ok t1 ->
  exists fid, ret_of t0 (Some fid) = r /\ running (Datatypes.S (length (t_frames t))) (Some fid) (t_stk t) S t1.
Proof.
  intros T (y & Iy & By) Ar E. pose proof (HU _ _ _ _ _ Iy By) as Sy. exists (sy_id y). destruct y as [yi nm yb]. cbn [sy_body sy_id] in *. subst yb.
  split; [unfold ret_of; rewrite Sy; auto|].
  unfold enter_call, oassert in E. destruct (0 <=? f)%Z; [|discriminate]. unfold room in E. rewrite HR in E. destruct (Nat.leb_spec (length args + length (t_stk (alloc_globals M t))) stack_size) as [Ls|]; [|discriminate].
  destruct (ty_fun _ _ _ _ Ht _ _ _ _ _ _ Sy) as (e & Ne & He). rewrite Ne in E. unfold push_indir, oassert in E. destruct (_ <? _); [|discriminate]. inversion E; subst t1.
  assert (Fr : t_frames (alloc_globals M t) = t_frames t /\ t_stk (alloc_globals M t) = t_stk t) by (unfold alloc_globals; destruct (t_globs t); auto). destruct Fr as (Fr & Fs).
  split; [eapply typed_same; [|apply typed_alloc_globals; exact T]; repeat split|]. cbn [t_stk with_ctl with_pc with_stk t_pc t_fp t_ret t_frames]. split; [rewrite app_length, rev_length; lia|].
  exists (Some yi), ([], None), [], (rev args ++ t_stk (alloc_globals M t)). split; auto. split; auto. split; auto. split; [constructor|]. split; [intros g X; discriminate|].
  cbn [frames_ty]. rewrite Fs. exists args, (t_stk t). split; auto. split; [unfold params_of; rewrite Sy; exact Ar|]. left. cbn [length]. rewrite Fr. split; auto. split; auto. split; auto.
  cbn [f_nargs]. pose proof (Z.mod_le (Z.of_nat (length args)) 256 ltac:(lia) ltac:(lia)). lia.
Qed.

Lemma loop_typed : forall fuel,
  (forall d c0 base S t t', c0 <> None -> running (Datatypes.S d) c0 base S t -> loop M poll fuel (Some d) t = Ok t' -> exists S', more S S' /\ left_it (Datatypes.S d) c0 base S' t') /\
  calls_ok (call_function M poll fuel).
Proof.
  assert (C : forall fuel,
    (forall d c0 base S t t', c0 <> None -> running (Datatypes.S d) c0 base S t -> loop M poll fuel (Some d) t = Ok t' -> exists S', more S S' /\ left_it (Datatypes.S d) c0 base S' t') ->
    calls_ok (call_function M poll fuel)).
  { intros fuel L S t f args v t' params locals r T Fs Ar E. unfold call_function in E. obinv E. obinv E.
    destruct (enter_typed _ _ _ _ _ _ _ _ T Fs Ar Em) as (fid & Er & R).
    assert (Nn : Some fid <> None) by discriminate. destruct (L _ _ _ _ _ _ Nn R Em0) as (S' & Mo & T' & Lf & Hr & x & Ex). exists S'. split; auto.
    unfold leave_call in E. obinv E. destruct (_ <=? _); inversion E; subst. split; [eapply typed_same; [|exact T']; repeat split|]. split; auto. cbn [t_stk with_ret with_ctl].
    unfold cut in Em1. rewrite Ex in Em1. rewrite app_length in Em1. destruct (_ <=? _); [|discriminate]. injection Em1 as <-.
    replace (length x + length (t_stk t) - length (t_stk t)) with (length x) by lia. rewrite skipn_app, Nat.sub_diag, skipn_all. reflexivity. }
  induction fuel as [|fuel IH].
  - assert (L0 : forall d c0 base S t t', c0 <> None -> running (Datatypes.S d) c0 base S t -> loop M poll 0 (Some d) t = Ok t' -> exists S', more S S' /\ left_it (Datatypes.S d) c0 base S' t').
    { intros d c0 base S t t' N R E. cbn [loop] in E. destruct R as (T & L & cur & A & top & rest & Hs & Es & Lr & Ft & Hr & Fr). apply frames_deep in Fr.
      destruct (Nat.ltb_spec d (length (t_frames t))); [discriminate|lia]. }
    split; [exact L0|]. apply C. exact L0.
  - assert (L1 : forall d c0 base S t t', c0 <> None -> running (Datatypes.S d) c0 base S t -> loop M poll (Datatypes.S fuel) (Some d) t = Ok t' -> exists S', more S S' /\ left_it (Datatypes.S d) c0 base S' t').
    { intros d c0 base S t t' N R E. rewrite loop_S in E.
      assert (Dp : Datatypes.S d <= length (t_frames t)) by (destruct R as (T & L & cur & A & top & rest & Hs & Es & Lr & Ft & Hr & Fr); apply frames_deep in Fr; exact Fr).
      destruct (Nat.ltb_spec d (length (t_frames t))); [|lia]. obinv E. destruct r as [b t1].
      destruct (step_typed _ _ _ _ (proj2 IH) (fun t f a v t' => call_ctl M poll fuel t f a v t') _ _ _ _ R Em) as (-> & S1 & M1 & [R1|[L1|(_ & _ & X)]]).
      - destruct (proj1 IH _ _ _ _ _ _ N R1 E) as (S2 & M2 & W). exists S2. split; auto. eapply more_trans; eauto.
      - exists S1. split; auto. assert (t' = t1); [|subst; auto]. destruct L1 as (_ & Ll & _). destruct fuel; cbn [loop] in E; destruct (Nat.ltb_spec d (length (t_frames t1))); try lia; congruence.
      - specialize (X N). discriminate. }
    split; [exact L1|]. apply C. exact L1.
Qed.

Lemma call_typed fuel : calls_ok (call_function M poll fuel).
Proof. apply loop_typed. Qed.

(** ** Executions *)
Lemma cycles_typed d c0 base S t b t' : running d c0 base S t -> cycles M poll t (Ok (b, t')) -> b = true /\ exists S', more S S' /\ outcome_ok d c0 base S' t'.
Proof. intros R (_ & fuel & E). exact (step_typed _ _ _ _ (call_typed fuel) (fun t f a v t' => call_ctl M poll fuel t f a v t') _ _ _ _ R E). Qed.

Lemma start_typed S t : typed S t -> t_stk t = [] -> t_fp t = 0 -> t_frames t = [] -> running 0 None [] S (start_thread M t).
Proof.
  intros T E1 E2 E3. assert (Sm : t_stk (alloc_globals M t) = [] /\ t_fp (alloc_globals M t) = 0 /\ t_frames (alloc_globals M t) = []) by (unfold alloc_globals; destruct (t_globs t); auto).
  destruct Sm as (F1 & F2 & F3). split; [eapply typed_same; [|apply typed_alloc_globals; exact T]; repeat split|]. cbn [start_thread with_pc t_stk t_pc t_fp t_frames t_ret]. rewrite F1, F2, F3. split; [cbn; lia|].
  exists None, ([], None), [], []. split; [apply Ht|]. split; auto. split; auto. split; [constructor|]. split; [intros g X; discriminate|]. cbn. auto.
Qed.
Lemma cycled_typed t t' : cycled M poll t t' -> forall S, (running 0 None [] S t \/ halted 0 None S t) -> exists S', more S S' /\ (running 0 None [] S' t' \/ halted 0 None S' t').
Proof.
  induction 1 as [t|t b t1 t' C _ IH]; intros S X; [exists S; split; [apply more_refl|exact X]|].
  destruct X as [R|(T & N & X)].
  - destruct (cycles_typed _ _ _ _ _ _ _ R C) as (_ & S1 & M1 & [R1|[(_ & L & _)|R1]]); [|lia|]; (destruct (IH S1 ltac:(auto)) as (S2 & M2 & W); exists S2; split; [eapply more_trans; eauto|exact W]).
  - destruct C as (_ & f & E). unfold execute_cycle, cycle in E. destruct (Z.ltb_spec (t_pc t) 0); [|lia]. inversion E; subst. apply IH. right. split; auto.
Qed.
Lemma inside_typed d c0 base t t' : c0 <> None -> inside M poll d t t' -> forall S, running (Datatypes.S d) c0 base S t -> d < length (t_frames t') -> exists S', more S S' /\ running (Datatypes.S d) c0 base S' t'.
Proof.
  intros N. induction 1 as [t|t t1 t' L C Hi IH]; intros S R L'; [exists S; split; [apply more_refl|exact R]|].
  destruct (cycles_typed _ _ _ _ _ _ _ R C) as (_ & S1 & M1 & [R1|[(_ & L1 & _)|(_ & _ & X)]]).
  - destruct (IH _ R1 L') as (S2 & M2 & W). exists S2. split; auto. eapply more_trans; eauto.
  - inversion Hi; subst; lia.
  - specialize (X N). discriminate.
Qed.
End Dynamic.
End Types.
