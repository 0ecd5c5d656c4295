(** * Laid out code computes what Source.v says: expressions and calls *)
From Verif Require Import Base Token Float64 Values Heap Code CodeSpec Syntax Symbols Compile Layout LayoutProofs
  VM VMBasics VMSpec VMInv VMFrame VMProofs Source Simulate.
Local Open Scope nat_scope.

(** The variables an expression or statement mentions (not inside the functions
    it defines) *)
Fixpoint erefs (e : texpr) : list vref :=
  match e with
  | TId r _ => [r]
  | TCall _ args _ | TNew _ _ args => flat_map erefs args
  | TBin _ l r _ => erefs l ++ erefs r
  | TUn _ e _ | TParen e | TCast e _ | TDot e _ _ => erefs e
  | TIndex a i _ _ _ => erefs a ++ erefs i
  | TTern c a b _ => erefs c ++ erefs a ++ erefs b
  | _ => []
  end.
Fixpoint srefs (s : tstmt) : list vref :=
  match s with
  | TSCall _ _ args => flat_map erefs args
  | TSDecl _ r e => r :: erefs e
  | TSAsg _ _ l r => erefs l ++ erefs r
  | TSBlock _ ss => flat_map srefs ss
  | TSIf _ c a None => erefs c ++ srefs a
  | TSIf _ c a (Some b) => erefs c ++ srefs a ++ srefs b
  | TSWhile _ c b => erefs c ++ srefs b
  | TSFor _ i c s b => srefs i ++ erefs c ++ srefs s ++ srefs b
  | TSReturn _ (Some e) => erefs e
  | _ => []
  end.

(** Variables of a function with [nargs] parameters are addressed relative to
    its frame: locals from 0, parameters just below. *)
Definition ref_ok (t : tbl) (nargs : nat) (r : vref) : Prop :=
  match r with
  | RLocal _ i => forall k, lidx t r = Some k -> k = Z.of_nat i
  | RArg _ i => forall k, lidx t r = Some k -> k = (Z.of_nat i - Z.of_nat nargs)%Z
  | _ => True
  end.

(** The machine holds the program *)
Record linked {H} (P : prog H) (M : machine H) (Fn : nat -> Z -> Prop) : Prop := mkLinked {
  ln_room : m_stack M = Some (p_room P);
  ln_small : p_room P <= 255;
  ln_depth : m_depth M = p_depth P;
  ln_strings : m_strings M = tb_strings (p_tbl P);
  ln_nglob : m_nglobals M = tb_nglob (p_tbl P);
  ln_gidx : forall id i, gidx (p_tbl P) id = Some i -> (Z.of_nat i < 2^32)%Z;
  ln_fields : forall id fs, sfields (p_tbl P) id = Some fs -> length fs <= 255;
  ln_foreign : forall y i a va r c, In y (tb_syms (p_tbl P)) -> sy_body y = SyForeign i a va r c ->
    (Z.of_nat i < 2^32)%Z /\ nth_error (m_foreign M) i = Some (p_callee P c);
  ln_fun : forall y i params locals ret body, In y (tb_syms (p_tbl P)) ->
    sy_body y = SyFunc i params locals ret -> p_body P (sy_id y) = Some body ->
    (Z.of_nat i < 2^32)%Z /\ length locals <= 255 /\ Forall (ref_ok (p_tbl P) (length params)) (srefs body) /\
    exists pc m1 m2 e q, nth_error (m_fpcs M) i = Some pc /\
      (if 0 <? length locals then at_i (m_code M) pc (IPushNullN (Z.of_nat (length locals))) m1 else pc = m1) /\
      lay_stmt (p_tbl P) (m_code M) Fn anywhere body m1 m2 q /\ at_i (m_code M) m2 IReturn e
}.

Section SimE.
Context {H : Type} (P : prog H) (M : machine H) (Fn : nat -> Z -> Prop) (LK : linked P M Fn).
Notation T := (p_tbl P).
Notation C := (m_code M).

(** What surrounds the code being executed: the stack below the arguments, the
    active calls, the number of arguments and locals *)
Record ctx := mkK { k_below : list value; k_frames : list frame; k_nargs : nat; k_nlocals : nat }.
Definition dep (K : ctx) : nat := length (k_frames K).
Definition hgt (K : ctx) (temps : list value) : nat :=
  length temps + (k_nlocals K + (k_nargs K + length (k_below K))).

Definition conf (K : ctx) (pc : Z) (temps : list value) (fe : fenv) (s : sst H) (ret : value) (nobj mx : nat)
  : thread H :=
  mkThread pc (length (e_args fe) + length (k_below K))
    (temps ++ rev (e_locals fe) ++ rev (e_args fe) ++ k_below K) (k_frames K) ret
    (Some (s_globs s)) (s_heap s) (s_next s) nobj mx (s_host s).

Definition env_ok (K : ctx) (fe : fenv) : Prop :=
  length (e_args fe) = k_nargs K /\ length (e_locals fe) = k_nlocals K.

Definition inst (K : ctx) (pc : Z) (temps : list value) (fe : fenv) (s : sst H) (t : thread H) : Prop :=
  env_ok K fe /\ hgt K temps <= p_room P /\ exists ret nobj mx, t = conf K pc temps fe s ret nobj mx.

(** ... right after a call: the result is at hand *)
Definition inst_ret (K : ctx) (pc : Z) (temps : list value) (fe : fenv) (v : value) (s : sst H) (t : thread H) : Prop :=
  env_ok K fe /\ hgt K temps <= p_room P /\ exists nobj mx, t = conf K pc temps fe s v nobj mx.

Lemma conf_len K pc temps fe s ret nobj mx : env_ok K fe ->
  length (t_stk (conf K pc temps fe s ret nobj mx)) = hgt K temps.
Proof. intros [A L]. cbn. rewrite !app_length, !rev_length, A, L. reflexivity. Qed.

Lemma room_eq n : room M n = (n <=? p_room P).
Proof. unfold room. rewrite (ln_room _ _ _ LK). reflexivity. Qed.

(** ** Stack slots from the bottom *)
Lemma nth_error_rev' {A} (l : list A) i : i < length l -> nth_error (rev l) (length l - 1 - i) = nth_error l i.
Proof.
  revert i. induction l as [|x l IH] using rev_ind; intros i L; [cbn in L; lia|].
  rewrite rev_app_distr, app_length in *. cbn [length rev app] in *.
  destruct (Nat.eq_dec i (length l)) as [->|N].
  - rewrite nth_error_app2 by lia. replace (length l + 1 - 1 - length l) with 0 by lia.
    rewrite Nat.sub_diag. reflexivity.
  - rewrite nth_error_app1 by lia. replace (length l + 1 - 1 - i) with (S (length l - 1 - i)) by lia.
    cbn. apply IH. lia.
Qed.

Lemma slot_top a b i : i < length b -> slot (a ++ b) i = slot b i.
Proof.
  intros L. unfold slot. rewrite app_length.
  rewrite (proj2 (Nat.ltb_lt i (length a + length b))) by lia. rewrite (proj2 (Nat.ltb_lt i (length b))) by lia.
  rewrite nth_error_app2 by lia. f_equal. f_equal. lia.
Qed.

Lemma slot_in l b i v : nth_error l i = Some v -> slot (rev l ++ b) (length b + i) = Ok v.
Proof.
  intros N. assert (L : i < length l) by (apply nth_error_Some; congruence).
  unfold slot. rewrite app_length, rev_length. rewrite (proj2 (Nat.ltb_lt _ _)) by lia.
  rewrite nth_error_app1 by (rewrite rev_length; lia).
  replace (length l + length b - 1 - (length b + i)) with (length l - 1 - i) by lia.
  rewrite nth_error_rev', N by auto. reflexivity.
Qed.

Lemma update_app_l {A} (a b : list A) i x : i < length a -> update (a ++ b) i x = update a i x ++ b.
Proof.
  intros L. unfold update. rewrite firstn_app, skipn_app. replace (i - length a) with 0 by lia.
  cbn [firstn skipn]. rewrite app_nil_r. destruct (skipn i a) eqn:E.
  { apply (f_equal (@length A)) in E. rewrite skipn_length in E. cbn in E. lia. }
  cbn. rewrite <- app_assoc. reflexivity.
Qed.
Lemma update_app_r {A} (a b : list A) i x : length a <= i -> update (a ++ b) i x = a ++ update b (i - length a) x.
Proof.
  intros L. unfold update. rewrite firstn_app, skipn_app.
  rewrite (firstn_all2 a) by lia. rewrite (skipn_all2 a) by lia. cbn. rewrite <- app_assoc. reflexivity.
Qed.
Lemma nth_ext_error {A} (l l' : list A) : (forall i, nth_error l i = nth_error l' i) -> l = l'.
Proof.
  revert l'. induction l as [|x l IH]; intros [|y l'] E; auto.
  - specialize (E 0). discriminate. - specialize (E 0). discriminate.
  - f_equal; [specialize (E 0); injection E; auto|]. apply IH. intros i. apply (E (S i)).
Qed.
Lemma update_rev {A} (l : list A) i x : i < length l -> update (rev l) (length l - 1 - i) x = rev (update l i x).
Proof.
  revert i. induction l as [|y l IH] using rev_ind; intros i L; [cbn in L; lia|].
  rewrite rev_app_distr, app_length in *. cbn [length rev app] in *.
  destruct (Nat.eq_dec i (length l)) as [->|N].
  - replace (length l + 1 - 1 - length l) with 0 by lia. rewrite update_app_r by lia.
    rewrite Nat.sub_diag. rewrite rev_app_distr. reflexivity.
  - replace (length l + 1 - 1 - i) with (S (length l - 1 - i)) by lia.
    rewrite update_app_l by lia. rewrite rev_app_distr. cbn [rev app].
    rewrite <- IH by lia. unfold update. reflexivity.
Qed.

Lemma set_slot_top a b i v b' : set_slot b i v = Ok b' -> set_slot (a ++ b) i v = Ok (a ++ b').
Proof.
  unfold set_slot. destruct (Nat.ltb_spec i (length b)) as [L|L]; [|discriminate]. intros E. injection E as <-.
  rewrite app_length, (proj2 (Nat.ltb_lt _ _)) by lia. f_equal. rewrite update_app_r by lia.
  f_equal. f_equal. lia.
Qed.

Lemma set_slot_in l b i v : i < length l -> set_slot (rev l ++ b) (length b + i) v = Ok (rev (update l i v) ++ b).
Proof.
  intros L. unfold set_slot. rewrite app_length, rev_length, (proj2 (Nat.ltb_lt _ _)) by lia. f_equal.
  rewrite update_app_l by (rewrite rev_length; lia). f_equal.
  replace (length l + length b - 1 - (length b + i)) with (length l - 1 - i) by lia. apply update_rev. auto.
Qed.

Lemma conf_arg K temps fe i v : nth_error (e_args fe) i = Some v ->
  slot (temps ++ rev (e_locals fe) ++ rev (e_args fe) ++ k_below K) (length (k_below K) + i) = Ok v.
Proof.
  intros N. assert (L : i < length (e_args fe)) by (apply nth_error_Some; congruence).
  rewrite slot_top by (rewrite !app_length, !rev_length; lia).
  rewrite slot_top by (rewrite !app_length, !rev_length; lia). apply slot_in. auto.
Qed.
Lemma conf_local K temps fe i v : nth_error (e_locals fe) i = Some v ->
  slot (temps ++ rev (e_locals fe) ++ rev (e_args fe) ++ k_below K)
    (length (e_args fe) + length (k_below K) + i) = Ok v.
Proof.
  intros N. assert (L : i < length (e_locals fe)) by (apply nth_error_Some; congruence).
  rewrite slot_top by (rewrite !app_length, !rev_length; lia).
  replace (length (e_args fe) + length (k_below K) + i) with (length (rev (e_args fe) ++ k_below K) + i)
    by (rewrite !app_length, !rev_length; lia).
  apply slot_in. auto.
Qed.
Lemma put_arg K temps fe i v : i < length (e_args fe) ->
  set_slot (temps ++ rev (e_locals fe) ++ rev (e_args fe) ++ k_below K) (length (k_below K) + i) v =
  Ok (temps ++ rev (e_locals fe) ++ rev (update (e_args fe) i v) ++ k_below K).
Proof. intros L. apply set_slot_top, set_slot_top, set_slot_in. auto. Qed.
Lemma put_local K temps fe i v : i < length (e_locals fe) ->
  set_slot (temps ++ rev (e_locals fe) ++ rev (e_args fe) ++ k_below K)
    (length (e_args fe) + length (k_below K) + i) v =
  Ok (temps ++ rev (update (e_locals fe) i v) ++ rev (e_args fe) ++ k_below K).
Proof.
  intros L. apply set_slot_top.
  replace (length (e_args fe) + length (k_below K) + i) with (length (rev (e_args fe) ++ k_below K) + i)
    by (rewrite !app_length, !rev_length; lia).
  apply set_slot_in. auto.
Qed.

(** Addresses of variables do not wrap around *)
Lemma local_slot_arg K fe i : env_ok K fe -> hgt K [] <= p_room P -> i < length (e_args fe) ->
  local_slot (length (e_args fe) + length (k_below K)) (Z.of_nat i - Z.of_nat (k_nargs K)) = length (k_below K) + i.
Proof.
  intros [A _] R L. pose proof (ln_small _ _ _ LK). unfold hgt in R. cbn in R. unfold local_slot.
  rewrite Z.mod_small by lia. lia.
Qed.
Lemma local_slot_local K fe i : env_ok K fe -> hgt K [] <= p_room P -> i < length (e_locals fe) ->
  local_slot (length (e_args fe) + length (k_below K)) (Z.of_nat i) = length (e_args fe) + length (k_below K) + i.
Proof.
  intros [A B] R L. pose proof (ln_small _ _ _ LK). unfold hgt in R. cbn in R. unfold local_slot.
  rewrite Z.mod_small by lia. lia.
Qed.
Lemma local_slot_norm fp k : local_slot fp (k mod 2^32) = local_slot fp k.
Proof. unfold local_slot. rewrite Zplus_mod_idemp_r. reflexivity. Qed.

(** ** Instructions on a configuration *)
Lemma hgt_cons K v temps : hgt K (v :: temps) = S (hgt K temps).
Proof. reflexivity. Qed.

(** An instruction that does not call *)
Lemma sim_i {A} n K a i b temps fe s t (r : outcome A) (Q : A -> thread H -> Prop) :
  inst K a temps fe s t -> at_i C a i b ->
  (forall callf ret nobj mx, match r with
   | Ok x => exists t1, VM.exec M callf (norm i) (conf K b temps fe s ret nobj mx) = Ok t1 /\ Q x t1
   | Abort => VM.exec M callf (norm i) (conf K b temps fe s ret nobj mx) = Abort
   | UB => True
   | Fuel => VM.exec M callf (norm i) (conf K b temps fe s ret nobj mx) = Fuel
   end) -> sim M n (dep K) t r Q.
Proof.
  intros (E & R & ret & nobj & mx & ->) D X. pose proof (decode_range _ _ _ _ D).
  eapply sim_instr with (i := norm i) (next := b); [cbn; unfold dep; lia|cbn; lia|exact D|].
  change (with_pc (conf K a temps fe s ret nobj mx) b) with (conf K b temps fe s ret nobj mx).
  destruct r.
  - exists 0. exact (X _ ret nobj mx). - exists 0. exact (X _ ret nobj mx). - auto.
  - intros f _. exact (X _ ret nobj mx).
Qed.

(** ... that pushes *)
Lemma sim_push n K a i b temps fe s t v :
  inst K a temps fe s t -> at_i C a i b ->
  (forall callf ret nobj mx, VM.exec M callf (norm i) (conf K b temps fe s ret nobj mx) =
     push M (conf K b temps fe s ret nobj mx) v) ->
  sim M n (dep K) t (keep P (hgt K temps) v s) (fun x t' => inst K b (fst x :: temps) fe (snd x) t').
Proof.
  intros I D X. unfold keep. destruct (Nat.ltb_spec (hgt K temps) (p_room P)) as [L|L]; [|exact Logic.I].
  eapply sim_i; eauto. intros callf ret nobj mx. rewrite X. unfold push. destruct I as (E & R & _).
  rewrite conf_len, room_eq by auto. rewrite (proj2 (Nat.leb_le _ _)) by lia.
  eexists. split; [reflexivity|]. split; [auto|]. split; [rewrite hgt_cons; cbn; lia|].
  exists ret, nobj, mx. reflexivity.
Qed.

(** jumps *)
Lemma sim_jmp {A} n K a x b temps fe s t (r : outcome A) Q : inst K a temps fe s t -> jmp C a x b ->
  (forall t', inst K x temps fe s t' -> sim M n (dep K) t' r Q) -> sim M (S n) (dep K) t r Q.
Proof.
  intros (E & R & ret & nobj & mx & ->) (k & D & J) X. pose proof (decode_range _ _ _ _ D).
  eapply sim_step; [cbn; unfold dep; lia| |apply X].
  - eapply cyc_instr; [cbn; lia|exact D|]. exists 0. reflexivity.
  - split; [auto|]. split; [auto|]. exists ret, nobj, mx. cbn. rewrite J. reflexivity.
Qed.
Lemma sim_jmp' {A} n K a x b temps fe s t (r : outcome A) Q : inst K a temps fe s t -> jmp C a x b ->
  (forall t', inst K x temps fe s t' -> sim M n (dep K) t' r Q) -> sim M n (dep K) t r Q.
Proof. intros. eapply sim_fuel; [eapply sim_jmp; eauto|lia]. Qed.

Lemma sim_jz {A} n K a x b v temps fe s t (k : bool -> outcome A) (Q : A -> thread H -> Prop) :
  inst K a (v :: temps) fe s t -> jz C a x b ->
  (forall (c : bool) t', inst K (if c then b else x) temps fe s t' -> sim M n (dep K) t' (k c) Q) ->
  sim M n (dep K) t (obind (is_true v) k) Q.
Proof.
  intros (E & R & ret & nobj & mx & ->) (j & D & J) X. pose proof (decode_range _ _ _ _ D).
  destruct (is_true v) as [c| | |] eqn:T; cbn [obind].
  - eapply sim_step' with (t1 := conf K (if c then b else x) temps fe s ret nobj mx);
      [cbn; unfold dep; lia| |apply X].
    + eapply cyc_instr; [cbn; lia|exact D|]. exists 0. cbn. destruct v; try discriminate T. cbn in T |- *.
      injection T as ->. destruct c; cbn; [|rewrite J]; reflexivity.
    + split; [auto|]. split; [rewrite hgt_cons in R; lia|]. eauto.
  - exists (conf K a (v :: temps) fe s ret nobj mx). split; [constructor|]. split; [cbn; unfold dep; lia|].
    eapply cyc_abort; [cbn; lia|exact D|]. exists 0. destruct v; try discriminate T; reflexivity.
  - exact Logic.I.
  - destruct v; discriminate T.
Qed.

(** ** Calls *)
Definition shared (s : sst H) (t : thread H) : Prop :=
  t_globs t = Some (s_globs s) /\ t_heap t = s_heap s /\ t_next t = s_next s /\ t_host t = s_host s.

Definition entered (t : thread H) (nargs : nat) (pc : Z) : thread H :=
  mkThread pc (length (t_stk t)) (t_stk t) (mkFrame (t_pc t) (t_fp t) nargs :: t_frames t)
    (t_ret t) (t_globs t) (t_heap t) (t_next t) (t_nobj t) (t_max t) (t_host t).

Definition back (t : thread H) (rest : list value) (v : value) (s : sst H) (t' : thread H) : Prop :=
  t_pc t' = t_pc t /\ t_fp t' = t_fp t /\ t_stk t' = rest /\ t_frames t' = t_frames t /\
  t_ret t' = v /\ shared s t'.

(** [enter] behaves like a call of the machine *)
Definition enter_ok (n : nat) (enter : nat -> nat -> sym -> list value -> sst H -> outcome (value * sst H)) : Prop :=
  forall y i params locals ret args s t rest,
    In y (tb_syms T) -> sy_body y = SyFunc i params locals ret ->
    t_stk t = rev args ++ rest -> length (t_stk t) <= p_room P -> shared s t ->
    let d := length (t_frames t) in
    let r := enter d (length (t_stk t)) y args s in
    r = UB \/ (r = Fuel /\ n = 0) \/
    exists pc, nth_error (m_fpcs M) i = Some pc /\ (Z.of_nat i < 2^32)%Z /\
      ((p_depth P <= d /\ r = Abort) \/
       (d < p_depth P /\
        sim M (pred n) (S d) (entered t (length args) pc) r (fun x t' => back t rest (fst x) (snd x) t'))).

Lemma push_indir_eq t k : push_indir M t k =
  if length (t_frames t) <? p_depth P then Ok (entered t k (t_pc t)) else Abort.
Proof. unfold push_indir, oassert. rewrite (ln_depth _ _ _ LK). destruct (_ <? _); reflexivity. Qed.

Lemma sim_enter {A} n d t (r : outcome A) Q m : sim M (pred n) (S d) t r Q -> m <= pred n -> sim M m (S d) t r Q.
Proof. intros. eapply sim_fuel; eauto. Qed.

Lemma sim_lower {A} n d d' t (r : outcome A) Q : sim M n d t r Q -> d' <= d -> sim M n d' t r Q.
Proof.
  intros S L. destruct r; cbn in *; auto.
  - destruct S as (t' & S & X). exists t'. split; auto. eapply star_weaken; eauto.
  - destruct S as (t' & S & D & X). exists t'. split; [eapply star_weaken; eauto|]. split; [lia|auto].
  - intros floor B. apply S. destruct floor; cbn in *; auto; lia.
Qed.

Section Calls.
Variable n : nat.
Variable enter : nat -> nat -> sym -> list value -> sst H -> outcome (value * sst H).
Hypothesis EN : enter_ok n enter.

(** What a use of the API does, compared with the source *)
Definition follows {A} (r : outcome (A * sst H)) (m : nat -> outcome (A * thread H)) (u : thread H) : Prop :=
  match r with
  | Ok (v, s') => exists f u', m f = Ok (v, u') /\ ctl_same u u' /\ shared s' u' /\ t_stk u' = t_stk u /\ t_ret u' = t_ret u
  | Abort => exists f, m f = Abort
  | UB => True
  | Fuel => forall f, f < n -> m f = Fuel
  end.

Lemma call_back_ok u f args s : shared s u -> length (t_stk u) <= p_room P ->
  follows (call_back P enter (length (t_frames u)) (length (t_stk u)) f args s)
    (fun k => call_function M no_poll k u f args) u.
Proof.
  intros Sh R. unfold call_back, follows, call_function, enter_call, oassert.
  destruct (Z.ltb_spec f 0) as [F|F].
  { exists 0. rewrite (proj2 (Z.leb_gt _ _)) by lia. reflexivity. }
  rewrite (proj2 (Z.leb_le 0 f)) by lia.
  assert (G : alloc_globals M u = u). { unfold alloc_globals. destruct Sh as (-> & _). reflexivity. }
  rewrite G. rewrite room_eq, (Nat.add_comm (length args)).
  destruct (Nat.leb_spec (length (t_stk u) + length args) (p_room P)) as [L|L]; [|exact I].
  unfold function_no. destruct (find _ _) as [y|] eqn:Fy; [|exact I].
  apply find_some in Fy. destruct Fy as [In Iy].
  destruct (sy_body y) as [| |i params locals ret| | | | |] eqn:By; try discriminate Iy.
  apply Z.eqb_eq in Iy. subst f. rewrite Nat2Z.id.
  set (u1 := with_pc (with_stk u (rev args ++ t_stk u)) 0%Z).
  assert (E1 : length (t_stk u) + length args = length (t_stk u1)).
  { unfold u1. cbn. rewrite app_length, rev_length. lia. }
  rewrite E1.
  change (length (t_frames u)) with (length (t_frames u1)).
  assert (L0 : (Z.of_nat (length args) mod 256)%Z = Z.of_nat (length args)).
  { apply Z.mod_small. pose proof (ln_small _ _ _ LK). lia. }
  destruct (nth_error (m_fpcs M) i) as [pc|] eqn:Fp.
  2:{ pose proof (EN y i params locals ret args s u1 (t_stk u) In By eq_refl ltac:(lia) Sh) as X.
      cbn zeta in X. destruct X as [X|[[X X0]|(pc & X & _)]]; [| |congruence].
      - rewrite X. exact I. - rewrite X, X0. intros; lia. }
  set (u2 := with_pc (with_stk u (rev args ++ t_stk u)) pc).
  pose proof (EN y i params locals ret args s u2 (t_stk u) In By eq_refl ltac:(cbn; cbn in E1; lia) Sh) as X.
  cbn zeta in X. change (t_stk u2) with (t_stk u1) in X. change (t_frames u2) with (t_frames u1) in X.
  destruct X as [X|[[X X0]|(pc' & X & _ & X0)]].
  { rewrite X. exact I. } { rewrite X, X0. intros; lia. }
  assert (pc' = pc) by congruence. subst pc'.
  rewrite L0, Nat2Z.id. fold u2. rewrite push_indir_eq. change (t_frames u2) with (t_frames u1).
  destruct X0 as [[D X0]|[D X0]].
  { rewrite X0. exists 0. rewrite (proj2 (Nat.ltb_ge _ _)) by lia. reflexivity. }
  rewrite (proj2 (Nat.ltb_lt _ _)) by lia. cbn [obind].
  change (t_pc u2) with pc.
  destruct (enter (length (t_frames u1)) (length (t_stk u1)) y args s) as [[v s']| | |]; cbn in X0.
  - destruct X0 as (t' & St & B). destruct B as (B1 & B2 & B3 & B4 & B5 & B6).
    change (t_frames u2) with (t_frames u) in *.
    assert (St' : loop M no_poll 0 (Some (length (t_frames u))) t' = Ok t').
    { change (loop M no_poll 0 (Some (length (t_frames u))) t')
        with (if length (t_frames u) <? length (t_frames t') then Fuel else Ok t').
      rewrite B4, Nat.ltb_irrefl. reflexivity. }
    destruct (star_lift M _ (Some (length (t_frames u))) _ _ _ _ St ltac:(cbn; lia) St' ltac:(discriminate)) as (f & E).
    exists f. change (t_frames u1) with (t_frames u). rewrite E. cbn [obind]. unfold leave_call. rewrite B3, B4.
    unfold cut. rewrite Nat.leb_refl, Nat.sub_diag. cbn [obind skipn]. rewrite Nat.leb_refl, Nat.sub_diag. cbn [skipn].
    eexists. split; [rewrite B5; reflexivity|]. split; [|split; [|split]].
    + unfold ctl_same. cbn. repeat split; reflexivity.
    + destruct B6 as (? & ? & ? & ?). repeat split; assumption.
    + reflexivity. + reflexivity.
  - destruct X0 as (t' & St & Dt & (_ & f & B)).
    assert (St' : loop M no_poll (S f) (Some (length (t_frames u))) t' = Abort).
    { rewrite loop_step. change (length (t_frames u1)) with (length (t_frames u)) in Dt.
      rewrite (going_true (S (length (t_frames u)))) by (cbn; lia). rewrite B. reflexivity. }
    destruct (star_lift M _ (Some (length (t_frames u))) _ _ _ _ St ltac:(cbn; lia) St' ltac:(discriminate)) as (f' & E).
    exists f'. change (t_frames u1) with (t_frames u). rewrite E. reflexivity.
  - exact I.
  - intros f Lf. rewrite (fuel_le M _ _ (pred n)); [reflexivity| |lia].
    apply X0. cbn. lia.
Qed.

Lemma run_fprog_split k k' u p f args v u' r : call_function M no_poll k u f args = Ok (v, u') ->
  run_fprog M (call_function M no_poll k') (p v) u' = r -> r <> Fuel ->
  exists m, run_fprog M (call_function M no_poll m) (FCall f args p) u = r.
Proof.
  intros E E' N. exists (Nat.max k k'). cbn [run_fprog].
  rewrite (ole_ok _ _ _ (call_function_mono M no_poll k (Nat.max k k') ltac:(lia) u f args) E) by discriminate.
  eapply ole_ok; [|exact E'|auto]. apply run_fprog_mono. apply call_function_mono. lia.
Qed.

Lemma ctl_refl (u : thread H) : ctl_same u u.
Proof. unfold ctl_same. auto. Qed.

Lemma follows_later {A} (r : outcome (A * sst H)) m u u1 :
  follows r m u1 -> ctl_same u u1 -> t_stk u1 = t_stk u -> t_ret u1 = t_ret u -> follows r m u.
Proof.
  intros F C1 S1 R1. destruct r as [[v s']| | |]; cbn in *; auto.
  destruct F as (f & u' & E & C2 & Sh & S2 & R2). exists f, u'. split; [auto|]. split; [|split; [auto|]].
  - eapply ctl_trans; eauto. - split; congruence.
Qed.

Lemma foreign_ok : forall p u s0, shared s0 u -> length (t_stk u) <= p_room P -> (0 <= t_pc u)%Z ->
  follows (run_foreign P (call_back P enter (length (t_frames u))) (length (t_stk u)) p s0)
    (fun k => run_fprog M (call_function M no_poll k) p u) u.
Proof.
  induction p as [v| | |k IHk|h p IHp|v k IHk|tx k IHk|ad pr k IHk|gi k IHk|gi gv p IHp|f args k IHk]; intros u s0 Sh R Pc; cbn [run_foreign run_fprog].
  - exists 0, u. split; [auto|]. split; [apply ctl_refl|auto].
  - exists 0. reflexivity.
  - exact I.
  - destruct Sh as (S1 & S2 & S3 & S4). rewrite S4. apply IHk; auto. split; [auto|]. auto.
  - eapply (follows_later _ _ u (with_host u h)); [|unfold ctl_same; cbn; auto|reflexivity|reflexivity].
    apply (IHp (with_host u h) (set_host s0 h)); auto. destruct Sh as (S1 & S2 & S3 & S4). split; cbn; auto.
  - destruct (ref_of v) as [id|]; [|exact I]. destruct Sh as (S1 & S2 & S3 & S4). rewrite S2.
    destruct (hget _ id); [|exact I]. apply IHk; auto. split; auto.
  - unfold new_obj, alloc.
    match goal with |- follows _ (fun k => run_fprog _ _ _ ?x) u => set (u1 := x) end.
    destruct Sh as (S1 & S2 & S3 & S4). rewrite S3.
    eapply (follows_later _ _ u u1); [|unfold ctl_same; cbn; auto|reflexivity|reflexivity].
    apply (IHk _ u1); auto. split; cbn; [auto|]. rewrite S2, S3. auto.
  - unfold oassert. rewrite (proj2 (Z.leb_le _ _)) by lia. unfold new_obj, alloc.
    match goal with |- follows _ (fun k => run_fprog _ _ _ ?x) u => set (u1 := x) end.
    destruct Sh as (S1 & S2 & S3 & S4). rewrite S3.
    eapply (follows_later _ _ u u1); [|unfold ctl_same; cbn; auto|reflexivity|reflexivity].
    apply (IHk _ u1); auto. split; cbn; [auto|]. rewrite S2, S3. auto.
  - unfold get_global, oassert. rewrite (ln_nglob _ _ _ LK). destruct (_ && _)%bool; [|exists 0; reflexivity].
    pose proof Sh as (S1 & S2 & S3 & S4). unfold glob_at. rewrite S1.
    destruct (nth_error _ _); cbn [of_option]; [|exact I]. apply IHk; auto.
  - unfold set_global, oassert. rewrite (ln_nglob _ _ _ LK). destruct (_ && _)%bool; [|exists 0; reflexivity].
    pose proof Sh as (S1 & S2 & S3 & S4). unfold glob_put. rewrite S1.
    destruct (_ <? _); [|exact I].
    match goal with |- follows _ (fun k => run_fprog _ _ _ ?x) u => set (u1 := x) end.
    eapply (follows_later _ _ u u1); [|unfold ctl_same; cbn; auto|reflexivity|reflexivity].
    apply (IHp u1); auto. split; cbn; auto.
  - pose proof (call_back_ok u f args s0 Sh R) as CB. unfold follows in CB.
    destruct (call_back P enter (length (t_frames u)) (length (t_stk u)) f args s0) as [[v s1]| | |]; cbn [obind].
    + destruct CB as (k0 & u1 & E1 & C1 & Sh1 & St1 & Rt1).
      assert (C1' := C1). destruct C1' as (P1 & _ & _ & F1 & _).
      pose proof (IHk v u1 s1 Sh1 ltac:(rewrite St1; auto) ltac:(rewrite P1; auto)) as X.
      rewrite St1, F1 in X.
      destruct (run_foreign P _ _ (k v) s1) as [[v' s2]| | |]; cbn in X |- *.
      * destruct X as (k1 & u2 & E2 & C2 & Sh2 & St2 & Rt2).
        destruct (run_fprog_split k0 k1 u k f args v u1 _ E1 E2 ltac:(discriminate)) as (m & Em).
        exists m, u2. split; [exact Em|]. split; [eapply ctl_trans; eauto|]. split; [auto|]. split; congruence.
      * destruct X as (k1 & E2). destruct (run_fprog_split k0 k1 u k f args v u1 _ E1 E2 ltac:(discriminate)) as (m & Em).
        exists m. exact Em.
      * exact I.
      * intros m Lm. destruct (call_function M no_poll m u f args) as [[v' u']| | |] eqn:Em; auto.
        -- assert (A : Ok (v', u') = Ok (v, u1)).
           { eapply (calls_det M no_poll u f args); split; try discriminate; eauto. }
           injection A as -> ->. apply X. auto.
        -- exfalso. assert (A : @Abort (value * thread H) = Ok (v, u1)).
           { eapply (calls_det M no_poll u f args); split; try discriminate; eauto. } discriminate.
        -- exfalso. assert (A : @UB (value * thread H) = Ok (v, u1)).
           { eapply (calls_det M no_poll u f args); split; try discriminate; eauto. } discriminate.
    + destruct CB as (k0 & E). exists k0. rewrite E. reflexivity.
    + exact I.
    + intros m Lm. rewrite CB by auto. reflexivity.
Qed.

(** A call instruction: arguments on top of the stack *)
Lemma sim_call K a b nargs y vs temps fe s t :
  inst K a (rev vs ++ temps) fe s t -> at_call C nargs y a b -> nargs = Z.of_nat (length vs) ->
  (forall x, y = Some x -> In x (tb_syms T)) ->
  forall x, y = Some x ->
  sim M n (dep K) t (call_sym P enter (dep K) (hgt K (rev vs ++ temps)) x vs s)
    (fun x t' => inst_ret K b temps fe (fst x) (snd x) t').
Proof.
  intros IN (x0 & i & Ey & Ci & D) En IY x Ex. rewrite Ex in Ey. injection Ey as <-.
  specialize (IY x Ex). destruct IN as (E & R & ret & nobj & mx & ->).
  pose proof (decode_range _ _ _ _ D) as Rg. unfold call_sym.
  assert (Htop : hgt K temps <= p_room P). { unfold hgt in *. rewrite app_length in R. lia. }
  destruct (sy_body x) as [| |fi params locals fr|fi ats va fr c| | | |] eqn:By; try discriminate Ci;
    cbn [call_instr] in Ci; [|destruct (arity_ok _ _ _); [|discriminate Ci]]; injection Ci as <-.
  - (* Tiny function *)
    set (t0 := conf K b (rev vs ++ temps) fe s ret nobj mx).
    pose proof (EN x fi params locals fr vs s t0 (temps ++ rev (e_locals fe) ++ rev (e_args fe) ++ k_below K)
      IY By) as X.
    specialize (X ltac:(unfold t0; cbn; rewrite <- app_assoc; reflexivity)
                  ltac:(unfold t0; rewrite conf_len; auto) ltac:(split; cbn; auto)).
    cbn zeta in X. unfold t0 in X. rewrite conf_len in X by auto. fold t0 in X.
    change (length (t_frames t0)) with (dep K) in X.
    destruct X as [X|[[X X0]|(pc & Fp & I32 & X)]].
    { rewrite X. exact I. } { rewrite X, X0. intros floor B. eapply loop0; eauto. }
    assert (EX : forall callf, VM.exec M callf (norm (ICall nargs (Z.of_nat fi))) t0 =
                  if dep K <? p_depth P then Ok (entered t0 (length vs) pc) else Abort).
    { intros callf. cbn [norm VM.exec]. rewrite push_indir_eq. change (length (t_frames t0)) with (dep K).
      destruct (dep K <? p_depth P); [|reflexivity]. cbn [obind].
      rewrite Z.mod_small by lia. rewrite Nat2Z.id, Fp. rewrite En, Nat2Z.id. reflexivity. }
    destruct X as [[Dp X]|[Dp X]].
    { rewrite X. exists (conf K a (rev vs ++ temps) fe s ret nobj mx). split; [constructor|].
      split; [cbn; unfold dep; lia|]. eapply cyc_abort; [cbn; lia|exact D|]. exists 0.
      change (with_pc _ b) with t0. rewrite EX, (proj2 (Nat.ltb_ge _ _)) by auto. reflexivity. }
    destruct n as [|n'] eqn:Hn; cbn [pred] in X.
    + (* n = 0 *)
      eapply sim_step' with (t1 := entered t0 (length vs) pc); [cbn; unfold dep; lia| |].
      * eapply cyc_instr; [cbn; lia|exact D|]. exists 0. change (with_pc _ b) with t0.
        rewrite EX, (proj2 (Nat.ltb_lt _ _)) by auto. reflexivity.
      * eapply sim_lower with (d := S (dep K)); [|lia]. eapply sim_mono; [exact X|].
        intros [v s'] t' (B1 & B2 & B3 & B4 & B5 & (B6 & B7 & B8 & B9)). cbn [fst snd] in *.
        split; [auto|]. split; [auto|]. destruct t'. cbn in *. subst. exists t_nobj, t_max. reflexivity.
    + eapply sim_step with (t1 := entered t0 (length vs) pc); [cbn; unfold dep; lia| |].
      * eapply cyc_instr; [cbn; lia|exact D|]. exists 0. change (with_pc _ b) with t0.
        rewrite EX, (proj2 (Nat.ltb_lt _ _)) by auto. reflexivity.
      * eapply sim_lower with (d := S (dep K)); [|lia]. eapply sim_mono; [exact X|].
        intros [v s'] t' (B1 & B2 & B3 & B4 & B5 & (B6 & B7 & B8 & B9)). cbn [fst snd] in *.
        split; [auto|]. split; [auto|]. destruct t'. cbn in *. subst. exists t_nobj, t_max. reflexivity.
  - (* foreign function *)
    destruct (ln_foreign _ _ _ LK _ _ _ _ _ _ IY By) as [I32 Nf].
    set (t0 := conf K b (rev vs ++ temps) fe s ret nobj mx).
    set (rest := temps ++ rev (e_locals fe) ++ rev (e_args fe) ++ k_below K).
    assert (Stk : t_stk t0 = rev vs ++ rest). { unfold t0, rest. cbn. rewrite <- app_assoc. reflexivity. }
    pose proof (foreign_ok (p_callee P c vs) t0 s ltac:(split; cbn; auto)
      ltac:(unfold t0; rewrite conf_len; auto) ltac:(cbn; lia)) as X.
    unfold t0 in X at 1 2. rewrite conf_len in X by auto. change (length (t_frames _)) with (dep K) in X.
    assert (EX : forall callf, VM.exec M callf (norm (ICallF nargs (Z.of_nat fi))) t0 =
       obind (run_fprog M callf (p_callee P c vs) t0)
         (fun r => let (v, t1) := r in obind (cut (t_stk t1) (length rest)) (fun st => Ok (with_ret (with_stk t1 st) v)))).
    { intros callf. cbn [norm VM.exec]. rewrite En, Nat2Z.id. rewrite Stk, app_length, rev_length.
      rewrite (proj2 (Nat.leb_le _ _)) by lia. rewrite Z.mod_small by lia. rewrite Nat2Z.id, Nf.
      unfold top_args. rewrite firstn_app, rev_length, Nat.sub_diag, (firstn_all2 (rev vs)) by (rewrite rev_length; lia).
      cbn [firstn]. rewrite app_nil_r, rev_involutive. replace (length vs + length rest - length vs) with (length rest) by lia.
      reflexivity. }
    eapply sim_instr; [cbn; unfold dep; lia|cbn; lia|exact D|].
    change (with_pc (conf K a (rev vs ++ temps) fe s ret nobj mx) b) with t0. unfold follows in X.
    destruct (run_foreign P _ _ _ s) as [[v s']| | |].
    + destruct X as (k & u' & E1 & C1 & Sh & St & Rt). exists k. rewrite EX, E1. cbn [obind].
      rewrite St, Stk. unfold cut. rewrite app_length, (proj2 (Nat.leb_le _ _)) by lia.
      replace (length (rev vs) + length rest - length rest) with (length (rev vs)) by lia.
      rewrite skipn_app, skipn_all, Nat.sub_diag. cbn [skipn app obind]. eexists. split; [reflexivity|].
      split; [auto|]. split; [auto|]. destruct C1 as (P1 & P2 & _ & P3 & _). destruct Sh as (B6 & B7 & B8 & B9).
      destruct u'. cbn in *. subst. exists t_nobj, t_max. reflexivity.
    + destruct X as (k & E1). exists k. rewrite EX, E1. reflexivity.
    + exact I.
    + intros f Lf. rewrite EX, X by auto. reflexivity.
Qed.

(** ... whose result is pushed *)
Lemma sim_retval K a b temps fe v s t : inst_ret K a temps fe v s t -> at_i C a IGetRetval b ->
  sim M n (dep K) t (keep P (hgt K temps) v s) (fun x t' => inst K b (fst x :: temps) fe (snd x) t').
Proof.
  intros (E & R & nobj & mx & ->) D. pose proof (decode_range _ _ _ _ D). unfold keep.
  destruct (Nat.ltb_spec (hgt K temps) (p_room P)) as [L|L]; [|exact I].
  eapply sim_instr; [cbn; unfold dep; lia|cbn; lia|exact D|]. exists 0.
  cbn [norm VM.exec]. change (with_pc (conf K a temps fe s v nobj mx) b) with (conf K b temps fe s v nobj mx).
  unfold push. rewrite conf_len, room_eq by auto. rewrite (proj2 (Nat.leb_le _ _)) by lia.
  eexists. split; [reflexivity|]. split; [auto|]. split; [rewrite hgt_cons; cbn; lia|]. exists v, nobj, mx. reflexivity.
Qed.

(** ** Values of variables and constants *)
Lemma wrap_wrap z : wrap32 (wrap64 z) = wrap32 z.
Proof.
  unfold wrap32, wrap64. f_equal.
  replace ((z + 2^63) mod 2^64 - 2^63 + 2^31)%Z with ((z + 2^63) mod 2^64 + (2^31 - 2^63))%Z by lia.
  rewrite <- (Zplus_mod_idemp_l ((z + 2^63) mod 2^64)).
  rewrite <- Znumtheory.Zmod_div_mod; [|lia|lia|exists (2^32)%Z; reflexivity].
  rewrite Zplus_mod_idemp_l. f_equal. lia.
Qed.

Lemma sim_int K a b temps fe s t z : inst K a temps fe s t -> at_i C a (int_instr z) b ->
  sim M n (dep K) t (keep P (hgt K temps) (VInt (wrap32 z)) s) (fun x t' => inst K b (fst x :: temps) fe (snd x) t').
Proof.
  intros IN D. eapply sim_push; eauto. intros. unfold int_instr.
  destruct (Z.eqb_spec z 0) as [->|]; [reflexivity|]. destruct (Z.eqb_spec z 1) as [->|]; [reflexivity|].
  cbn [norm VM.exec]. rewrite wrap_wrap. reflexivity.
Qed.

Lemma sim_float K a b temps fe s t z : inst K a temps fe s t -> at_i C a (IPushFloat z) b ->
  sim M n (dep K) t (keep P (hgt K temps) (VFloat (z mod 2^64)) s) (fun x t' => inst K b (fst x :: temps) fe (snd x) t').
Proof. intros IN D. eapply sim_push; eauto. Qed.

Lemma sim_str K a b temps fe s t i : inst K a temps fe s t -> at_str C i a b ->
  sim M n (dep K) t (obind (const_val P (KStr i)) (fun v => keep P (hgt K temps) v s))
    (fun x t' => inst K b (fst x :: temps) fe (snd x) t').
Proof.
  intros IN (_ & D). cbn [const_val]. destruct (Nat.ltb_spec i 256); [|exact I].
  destruct (nth_error (tb_strings T) i) as [x|] eqn:E; [|exact I]. cbn [option_map of_option obind].
  eapply sim_push; eauto. intros. cbn [norm VM.exec]. rewrite (proj2 (Z.ltb_ge _ _)) by lia.
  rewrite (ln_strings _ _ _ LK), Nat2Z.id, E. reflexivity.
Qed.

Lemma sim_ref K a b temps fe s t r : inst K a temps fe s t -> at_ref T C r a b -> ref_ok T (k_nargs K) r ->
  sim M n (dep K) t (obind (read_var P fe r s) (fun v => keep P (hgt K temps) v s))
    (fun x t' => inst K b (fst x :: temps) fe (snd x) t').
Proof.
  intros IN AR RO. pose proof IN as (E & R & _).
  assert (R0 : hgt K [] <= p_room P). { unfold hgt in *. cbn. lia. }
  destruct r as [id|id|f i|f i]; cbn [at_ref read_var] in *.
  - destruct AR as (i & G & D). unfold global_index. unfold gidx in G. destruct (sym_at T id) as [[? ? []]|] eqn:Sy; try discriminate G.
    injection G as ->. assert (G : gidx T id = Some i) by (unfold gidx; rewrite Sy; reflexivity).
    apply (ln_gidx _ _ _ LK) in G. destruct (nth_error (s_globs s) i) as [v|] eqn:N; [|exact I].
    cbn [of_option obind]. eapply sim_push; eauto. intros. cbn [norm VM.exec]. unfold glob_at, conf. cbn [t_globs].
    rewrite Z.mod_small by lia. rewrite Nat2Z.id, N. reflexivity.
  - destruct AR as (c & G & D). unfold cval in G. destruct (sym_at T id) as [[? ? []]|] eqn:Sy; try discriminate G.
    injection G as ->. destruct c; cbn [const_val obind].
    + eapply sim_push; eauto. intros. destruct b0; reflexivity.
    + eapply sim_int; eauto. + eapply sim_float; eauto. + eapply sim_str; eauto.
  - destruct AR as (k & G & D). apply RO in G. subst k.
    destruct (nth_error (e_locals fe) i) as [v|] eqn:N; [|exact I]. cbn [of_option obind].
    assert (Li : i < length (e_locals fe)) by (apply nth_error_Some; congruence).
    eapply sim_push; eauto. intros. destruct (_ || _)%bool; cbn [norm VM.exec]; cbn [t_stk t_fp conf].
    + rewrite local_slot_norm. rewrite local_slot_local by auto. rewrite (conf_local _ _ _ _ v); auto.
    + rewrite Nat2Z.id. rewrite (conf_local _ _ _ _ v); auto.
  - destruct AR as (k & G & D). apply RO in G. subst k.
    destruct (nth_error (e_args fe) i) as [v|] eqn:N; [|exact I]. cbn [of_option obind].
    assert (Li : i < length (e_args fe)) by (apply nth_error_Some; congruence).
    pose proof E as [EA _].
    rewrite (proj2 (Z.ltb_lt _ _)) in D by lia. cbn [orb] in D.
    eapply sim_push; eauto. intros. cbn [norm VM.exec]; cbn [t_stk t_fp conf].
    rewrite local_slot_norm. rewrite local_slot_arg by auto. rewrite (conf_arg _ _ _ _ v); auto.
Qed.

Lemma sim_set K a b v temps fe s t r : inst K a (v :: temps) fe s t -> at_set T C r a b -> ref_ok T (k_nargs K) r ->
  sim M n (dep K) t (write_var P fe r v s) (fun x t' => inst K b temps (fst x) (snd x) t').
Proof.
  intros IN AR RO. pose proof IN as (E & R & _). rewrite hgt_cons in R.
  assert (R0 : hgt K [] <= p_room P). { unfold hgt in *. cbn. lia. }
  destruct r as [id|id|f i|f i]; cbn [at_set write_var] in *.
  - destruct AR as (i & G & D). unfold global_index. unfold gidx in G. destruct (sym_at T id) as [[? ? []]|] eqn:Sy; try discriminate G.
    injection G as ->. assert (G : gidx T id = Some i) by (unfold gidx; rewrite Sy; reflexivity).
    apply (ln_gidx _ _ _ LK) in G. destruct (i <? length (s_globs s)) eqn:L; [|exact I].
    eapply sim_i; eauto. intros. cbn [norm VM.exec]. unfold pop, conf. cbn [t_stk app obind]. unfold glob_put. cbn [t_globs with_stk].
    rewrite Z.mod_small by lia. rewrite Nat2Z.id, L. eexists. split; [reflexivity|].
    split; [auto|]. split; [lia|]. exists ret, nobj, mx. reflexivity.
  - contradiction.
  - destruct AR as (k & G & D). apply RO in G. subst k.
    destruct (Nat.ltb_spec i (length (e_locals fe))) as [L|]; [|exact I].
    eapply sim_i; eauto. intros. cbn [norm VM.exec]. unfold pop, conf. cbn [t_stk app obind t_fp with_stk].
    rewrite local_slot_norm. rewrite local_slot_local by auto. rewrite put_local by auto. cbn [obind].
    eexists. split; [reflexivity|]. destruct E as [E1 E2].
    split; [split; cbn; [|rewrite update_length]; auto|]. split; [lia|]. exists ret, nobj, mx. reflexivity.
  - destruct AR as (k & G & D). apply RO in G. subst k.
    destruct (Nat.ltb_spec i (length (e_args fe))) as [L|]; [|exact I].
    eapply sim_i; eauto. intros. cbn [norm VM.exec]. unfold pop, conf. cbn [t_stk app obind t_fp with_stk].
    rewrite local_slot_norm. rewrite local_slot_arg by auto. rewrite put_arg by auto. cbn [obind].
    eexists. split; [reflexivity|]. destruct E as [E1 E2].
    split; [split; cbn; [rewrite update_length|]; auto|]. split; [lia|]. exists ret, nobj, mx.
    unfold conf. cbn. rewrite update_length. reflexivity.
Qed.

(** ** Operators *)
Lemma sim_bin K a o b x y temps fe s t : inst K a (y :: x :: temps) fe s t -> at_i C a (IBin o) b ->
  sim M n (dep K) t (obind (do_bin o x y) (fun v => Ok (v, s))) (fun x t' => inst K b (fst x :: temps) fe (snd x) t').
Proof.
  intros IN D. pose proof IN as (E & R & _). rewrite !hgt_cons in R.
  eapply sim_i; eauto. intros. cbn [norm VM.exec]. unfold conf. cbn [t_stk app].
  destruct (do_bin o x y); cbn [obind]; auto. eexists. split; [reflexivity|].
  split; [auto|]. split; [rewrite hgt_cons; lia|]. exists ret, nobj, mx. reflexivity.
Qed.

Lemma sim_equ K a b x y temps fe s t : inst K a (y :: x :: temps) fe s t -> at_i C a IEqu b ->
  sim M n (dep K) t (obind (values_equal (s_heap s) x y) (fun v => Ok (VBool v, s)))
    (fun x t' => inst K b (fst x :: temps) fe (snd x) t').
Proof.
  intros IN D. pose proof IN as (E & R & _). rewrite !hgt_cons in R.
  eapply sim_i; eauto. intros. cbn [norm VM.exec]. unfold conf. cbn [t_stk app t_heap].
  destruct (values_equal (s_heap s) x y); cbn [obind]; auto. eexists. split; [reflexivity|].
  split; [auto|]. split; [rewrite hgt_cons; lia|]. exists ret, nobj, mx. reflexivity.
Qed.

Lemma sim_not K a b x temps fe s t : inst K a (x :: temps) fe s t -> at_i C a INot b ->
  sim M n (dep K) t (obind (is_true x) (fun v => Ok (VBool (negb v), s)))
    (fun x t' => inst K b (fst x :: temps) fe (snd x) t').
Proof.
  intros IN D. pose proof IN as (E & R & _). rewrite hgt_cons in R.
  eapply sim_i; eauto. intros. cbn [norm VM.exec]. unfold conf. cbn [t_stk app t_heap].
  destruct x; cbn [is_true expect_bool obind]; auto. eexists. split; [reflexivity|].
  split; [auto|]. split; [rewrite hgt_cons; lia|]. exists ret, nobj, mx. reflexivity.
Qed.

Lemma sim_get_field K a b k x temps fe s t : inst K a (x :: temps) fe s t -> at_i C a (IStructGet (Z.of_nat k)) b ->
  sim M n (dep K) t (obind (get_field x k s) (fun v => Ok (v, s)))
    (fun x t' => inst K b (fst x :: temps) fe (snd x) t').
Proof.
  intros IN D. pose proof IN as (E & R & _). rewrite hgt_cons in R.
  eapply sim_i; eauto. intros. cbn [norm VM.exec]. unfold conf. cbn [t_stk app t_heap]. rewrite Nat2Z.id.
  destruct x; cbn [get_field obind]; auto. destruct (hget (s_heap s) id) as [[? ? []]|]; cbn [obind]; auto.
  destruct (nth_error _ k); cbn [obind]; auto.
  eexists. split; [reflexivity|].
  split; [auto|]. split; [rewrite hgt_cons; lia|]. exists ret, nobj, mx. reflexivity.
Qed.

Lemma sim_put_field K a b k o v temps fe s t : inst K a (o :: v :: temps) fe s t -> at_i C a (IStructSet (Z.of_nat k)) b ->
  sim M n (dep K) t (put_field o k v s) (fun s' t' => inst K b temps fe s' t').
Proof.
  intros IN D. pose proof IN as (E & R & _). rewrite !hgt_cons in R.
  eapply sim_i; eauto. intros. cbn [norm VM.exec]. unfold conf. cbn [t_stk app t_heap]. rewrite Nat2Z.id.
  destruct o; cbn [put_field]; auto. destruct (hget (s_heap s) id) as [[? ? []]|]; auto.
  destruct (k <? length _); auto.
  eexists. split; [reflexivity|].
  split; [auto|]. split; [lia|]. exists ret, nobj, mx. reflexivity.
Qed.

(** [one]: [r] is the literal 1, added or subtracted in place *)
Lemma sim_one K a b (o : binop) (d : Z) i x temps fe s t :
  (o = OAdd /\ d = 1%Z /\ i = IAdd1) \/ (o = OSub /\ d = (-1)%Z /\ i = ISub1) ->
  (forall z, x <> VFloat z) ->
  inst K a (x :: temps) fe s t -> at_i C a i b ->
  sim M n (dep K) t (obind (do_bin o x (VInt 1)) (fun v => Ok (v, s)))
    (fun x t' => inst K b (fst x :: temps) fe (snd x) t').
Proof.
  intros O NF IN D. pose proof IN as (E & R & _). rewrite hgt_cons in R.
  assert (A : forall x, (forall z, x <> VFloat z) -> do_bin o x (VInt 1) = add_raw d x).
  { intros v NV. destruct O as [(-> & -> & _)|(-> & -> & _)]; destruct v; try reflexivity; destruct (NV _ eq_refl). }
  rewrite A by auto.
  eapply sim_i; eauto. intros.
  assert (X : VM.exec M callf (norm i) (conf K b (x :: temps) fe s ret nobj mx) =
    obind (add_raw d x) (fun v => Ok (with_stk (conf K b (x :: temps) fe s ret nobj mx)
       (v :: temps ++ rev (e_locals fe) ++ rev (e_args fe) ++ k_below K)))).
  { destruct O as [(-> & -> & ->)|(-> & -> & ->)]; reflexivity. }
  rewrite X. destruct (add_raw d x); cbn [obind]; auto. eexists. split; [reflexivity|].
  split; [auto|]. split; [rewrite hgt_cons; lia|]. exists ret, nobj, mx. reflexivity.
Qed.

(** ** Expressions *)
Definition computes (K : ctx) (fe : fenv) (m : nat -> sst H -> outcome (value * sst H)) (l : Z -> Z -> Prop) : Prop :=
  forall a b temps s t, l a b -> inst K a temps fe s t ->
    sim M n (dep K) t (m (hgt K temps) s) (fun x t' => inst K b (fst x :: temps) fe (snd x) t').

Definition eok (e : texpr) : Prop :=
  forall K fe, Forall (ref_ok T (k_nargs K)) (erefs e) -> computes K fe (eval P enter (dep K) fe e) (lay T C e).

Lemma eval_list_ok K fe : forall ms ls, Forall2 (computes K fe) ms ls ->
  forall a b temps s t, lay_seq ls a b -> inst K a temps fe s t ->
  sim M n (dep K) t (eval_list ms (hgt K temps) s)
    (fun x t' => length (fst x) = length ms /\ inst K b (rev (fst x) ++ temps) fe (snd x) t').
Proof.
  induction 1 as [|m l ms ls C1 F IH]; intros a b temps s t L IN; cbn [lay_seq eval_list] in *.
  - subst b. apply sim_ok. split; auto.
  - destruct L as (m1 & L1 & L2). eapply sim_bind; [eapply C1; eauto|]. intros [v s1] t1 I1. cbn [fst snd] in *.
    rewrite <- (hgt_cons K v temps). eapply sim_bind; [eapply IH; eauto|]. intros [vs s2] t2 (Lv & I2). cbn [fst snd] in *.
    apply sim_ok. cbn [fst snd length rev]. split; [congruence|]. rewrite <- app_assoc. exact I2.
Qed.

Lemma eoks_computes K fe es : Forall eok es -> Forall (ref_ok T (k_nargs K)) (flat_map erefs es) ->
  Forall2 (computes K fe) (map (eval P enter (dep K) fe) es) (map (lay T C) es).
Proof.
  induction 1 as [|e es E F IH]; intros R; cbn [map]; constructor.
  - apply E. cbn in R. apply Forall_app in R. tauto.
  - apply IH. cbn in R. apply Forall_app in R. tauto.
Qed.

(** designated initialisers *)
Lemma pick_ok K fe f : forall names ms ls m a b, Forall2 (computes K fe) ms ls ->
  named_init f names ms = Some m -> lay_pick f names ls a b -> exists l, l a b /\ computes K fe m l.
Proof.
  induction names as [|nm names IH]; intros ms ls m a b F N L; [discriminate|].
  destruct F as [|m0 l0 ms ls C0 F]; [discriminate|]. cbn [named_init lay_pick] in *.
  destruct (text_eqb nm f); [|eauto]. injection N as ->. eauto.
Qed.
Lemma inits_ok K fe names ms ls : Forall2 (computes K fe) ms ls ->
  forall fs l a b, inits fs names ms = Some l -> lay_fields fs names ls a b ->
  exists ls', Forall2 (computes K fe) l ls' /\ lay_seq ls' a b.
Proof.
  intros F. induction fs as [|f fs IH]; intros l a b I L; cbn [inits lay_fields] in *.
  - injection I as <-. exists []. split; [constructor|auto].
  - destruct L as (m & L1 & L2). destruct (named_init _ _ _) as [x|] eqn:N; [|discriminate].
    destruct (inits fs names ms) as [l'|] eqn:I'; [|discriminate]. injection I as <-.
    destruct (pick_ok _ _ _ _ _ _ _ _ _ F N L1) as (l0 & L0 & C0). destruct (IH _ _ _ eq_refl L2) as (ls' & F' & L').
    exists (l0 :: ls'). split; [constructor; auto|]. cbn. eauto.
Qed.
Lemma inits_length {A} names (ms : list A) : forall fs l, inits fs names ms = Some l -> length l = length fs.
Proof.
  induction fs; intros l E; cbn in E; [injection E as <-; auto|].
  destruct (named_init _ _ _); [|discriminate]. destruct (inits fs names ms); [|discriminate].
  injection E as <-. cbn. f_equal. apply IHfs. auto.
Qed.

(** A constructor *)
Lemma sim_new K a b nf vs temps fe s t : inst K a (rev vs ++ temps) fe s t -> length vs = nf -> nf <= 255 ->
  at_i C a (IPushStruct (Z.of_nat nf mod 256)) b ->
  sim M n (dep K) t
    (match vs with
     | [] => Abort
     | _ => let '(o, s2) := new_obj s (BStruct vs) in Ok (VStruct o, s2)
     end) (fun x t' => inst K b (fst x :: temps) fe (snd x) t').
Proof.
  intros IN L L2 D. pose proof IN as (E & R & _). rewrite Z.mod_small in D by lia.
  destruct vs as [|v vs].
  - cbn in L. subst nf. eapply sim_i; eauto.
  - cbv [new_obj]. cbv beta iota zeta. eapply sim_i; eauto. intros. cbn [norm VM.exec]. unfold oassert.
    rewrite (proj2 (Z.ltb_lt _ _)) by (rewrite <- L; cbn [length]; lia). rewrite Nat2Z.id, <- L.
    assert (Stk : t_stk (conf K b (rev (v :: vs) ++ temps) fe s ret nobj mx) =
                rev (v :: vs) ++ (temps ++ rev (e_locals fe) ++ rev (e_args fe) ++ k_below K)).
    { unfold conf. cbn [t_stk]. rewrite <- app_assoc. reflexivity. }
    cbv zeta. rewrite Stk. rewrite app_length, rev_length, (proj2 (Nat.leb_le _ _)) by lia.
    unfold top_args. rewrite firstn_app, rev_length, Nat.sub_diag, firstn_all2 by (rewrite rev_length; lia).
    rewrite skipn_app, rev_length, Nat.sub_diag, skipn_all2 by (rewrite rev_length; lia).
    cbn [firstn skipn app]. rewrite app_nil_r, rev_involutive. unfold alloc.
    unfold push. cbn [t_stk with_stk]. rewrite room_eq.
    assert (Hh : hgt K temps < p_room P). { unfold hgt in *. rewrite app_length, rev_length in R. cbn [length] in R. lia. }
    destruct E as [E1 E2].
    rewrite (proj2 (Nat.leb_le _ _)).
    2:{ rewrite !app_length, !rev_length. unfold hgt in Hh. lia. }
    eexists. split; [reflexivity|]. split; [split; auto|]. split; [cbn [fst]; rewrite hgt_cons; lia|].
    exists ret, (S nobj), mx. reflexivity.
Qed.
End Calls.
End SimE.
