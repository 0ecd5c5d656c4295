(** * From [Tiny_CreateState] to the running program

    [loaded]: what holds of every state a host can reach without a compile error
    (Host.v): the bytes of the program are the code of all statements compiled so
    far, one after the other, every function of the table is entered where the
    code of its body is, and names refer to what they should.  Functions parsed
    but not compiled yet (a [use] macro may run in between) are [pend]. *)
From Coq Require Import Permutation.
From Verif Require Import Base Token Values Code CodeSpec CodeProofs Syntax VM Source SimExpr Symbols Parser Resolve Compile Layout LayoutProofs
  CompileProofs TableInv ParserInv ResolveInv Host HostInv LayTable.
Local Open Scope nat_scope.

(** ** Tables of the same shape *)
Lemma forall_erase (P : sym -> Prop) : (forall y, P (erase y) <-> P y) ->
  forall l l', map erase l = map erase l' -> Forall P l -> Forall P l'.
Proof.
  intros E l l' M F. assert (Forall P (map erase l)).
  { apply Forall_forall. intros x I. apply in_map_iff in I as (y & <- & I). apply E. eapply Forall_forall in F; eauto. }
  rewrite M in H. apply Forall_forall. intros y I. apply E. eapply Forall_forall in H; [exact H|]. apply in_map; auto.
Qed.

Lemma key_erase b : key (erase_body b) = key b.
Proof. destruct b; reflexivity. Qed.
Lemma keys_erase l : keys (map erase l) = keys l.
Proof. unfold keys. induction l as [|y l IH]; cbn; auto. rewrite IH, key_erase. reflexivity. Qed.
Lemma funs_erase l : funs (map erase l) = funs l.
Proof. unfold funs. induction l as [|[i n b] l IH]; cbn; auto. rewrite IH. destruct b; reflexivity. Qed.

Lemma positions_erase off vs : positions off (map erase_var vs) <-> positions off vs.
Proof.
  unfold positions. split; intros P i v E.
  - apply (P i (erase_var v)). rewrite nth_error_map, E. reflexivity.
  - rewrite nth_error_map in E. destruct (nth_error vs i) eqn:X; try discriminate. injection E as <-. cbn. eauto.
Qed.

Lemma body_ok_erase w b : body_ok w (erase_body b) <-> body_ok w b.
Proof. destruct b; cbn; try reflexivity. rewrite !positions_erase, map_length. reflexivity. Qed.

Lemma shape_good t t' : same_shape t t' -> good full t -> good full t'.
Proof.
  intros S G. pose proof S as (E & Ng & Nf & Nx & Nn & _). destruct G as [U N K C B]. constructor.
  - eapply shape_unique; eauto.
  - eapply forall_erase; [|exact E|]; [intros y; cbn; reflexivity|]. rewrite <- Nn. exact N.
  - rewrite <- keys_erase, <- E, keys_erase. exact K.
  - rewrite <- keys_erase, <- E, keys_erase. eapply Forall_impl; [|exact C]. intros [[] i]; cbn; lia.
  - eapply forall_erase; [|exact E|exact B]. intros y. cbn. apply body_ok_erase.
Qed.

Lemma shape_funs t t' : same_shape t t' -> funs (tb_syms t') = funs (tb_syms t).
Proof. intros (E & _). rewrite <- funs_erase, <- E, funs_erase. reflexivity. Qed.

(** ** The numbers of functions *)
Lemma fun_symbol t f : good full t -> In f (funs (tb_syms t)) ->
  exists n i a l r, sym_at t f = Some (mkSym f n (SyFunc i a l r)) /\ In (mkSym f n (SyFunc i a l r)) (tb_syms t).
Proof.
  intros G I. unfold funs in I. apply in_flat_map in I as ([id n b] & I & J). cbn in J. destruct b; try contradiction.
  destruct J as [<-|[]]. do 5 eexists. split; [|exact I]. apply (in_sym_at _ _ (gd_unique _ _ G) I).
Qed.

Lemma findex_fun t f : good full t -> In f (funs (tb_syms t)) -> exists i, findex t f = Some i.
Proof. intros G I. destruct (fun_symbol _ _ G I) as (n & i & a & l & r & E & _). unfold findex. rewrite E. eauto. Qed.

Lemma keys_in l y : In y l -> forall k, In k (key (sy_body y)) -> In k (keys l).
Proof. intros I k J. apply in_flat_map. eauto. Qed.

Lemma keys_unique l : NoDup (keys l) -> forall y y' k, In y l -> In y' l ->
  In k (key (sy_body y)) -> In k (key (sy_body y')) -> y = y'.
Proof.
  induction l as [|z l IH]; intros N y y' k I I' J J'; [contradiction|].
  unfold keys in N. cbn [flat_map] in N. destruct (nodup_app_l _ _ N) as (_ & N2 & N3).
  assert (D : forall x k, In x l -> In k (key (sy_body z)) -> In k (key (sy_body x)) -> False).
  { intros x k0 Ix Jz Jx. apply (keys_in l x Ix) in Jx. exact (N3 _ Jz Jx). }
  destruct I as [<-|I], I' as [<-|I']; auto.
  - exfalso. eauto.
  - exfalso. eauto.
  - eauto.
Qed.

Lemma funs_nodup t : good full t -> NoDup (funs (tb_syms t)).
Proof.
  intros G. pose proof (gd_unique _ _ G) as U. unfold unique in U. revert U. generalize (tb_syms t).
  induction l as [|y l IH]; cbn [map funs flat_map]; intros U; [constructor|]. apply NoDup_cons_iff in U as (U1 & U2).
  assert (X : ~ In (sy_id y) (flat_map (fun y => match sy_body y with SyFunc _ _ _ _ => [sy_id y] | _ => [] end) l)).
  { intros I. apply in_flat_map in I as (z & I & J). destruct (sy_body z); try contradiction. destruct J as [J|[]].
    apply U1. rewrite <- J. apply in_map; auto. }
  destruct (sy_body y); try exact (IH U2). constructor; [exact X|exact (IH U2)].
Qed.

Lemma nodup_map {A B} (f : A -> B) l : (forall x y, In x l -> In y l -> f x = f y -> x = y) -> NoDup l -> NoDup (map f l).
Proof.
  induction l as [|x l IH]; intros E N; cbn; [constructor|]. apply NoDup_cons_iff in N as (N1 & N2). constructor.
  - intros I. apply in_map_iff in I as (y & Ey & I). apply N1. rewrite <- (E y x); auto; [right|left]; auto.
  - apply IH; auto. intros. apply E; auto; right; auto.
Qed.

Lemma findex_nodup t : good full t -> NoDup (map (findex t) (funs (tb_syms t))).
Proof.
  intros G. apply nodup_map; [|apply funs_nodup; auto].
  intros f f' I I' E. destruct (fun_symbol _ _ G I) as (n & i & a & l & r & S & J).
  destruct (fun_symbol _ _ G I') as (n' & i' & a' & l' & r' & S' & J').
  unfold findex in E. rewrite S, S' in E. injection E as <-.
  pose proof (keys_unique _ (gd_keys _ _ G) _ _ (NFun, i) J J' ltac:(left; reflexivity) ltac:(left; reflexivity)) as X.
  congruence.
Qed.

(** ** Lists of statements as blocks *)


Lemma lay_stmts_app ls ls' : forall a m b p q, lay_stmts ls a m p -> lay_stmts ls' m b q -> lay_stmts (ls ++ ls') a b (p ++ q).
Proof.
  induction ls as [|x ls IH]; intros a m b p q L L'; cbn [lay_stmts app] in *.
  - destruct L as (-> & ->). exact L'.
  - destruct L as (k & p1 & p2 & L1 & L2 & ->). exists k, p1, (p2 ++ q). rewrite app_assoc. eauto.
Qed.

Definition laid (t : tbl) (s : kst) (C : program) (ss : list tstmt) (a b : Z) : Prop :=
  exists p, lay_stmts (map (lay_stmt t C (entry t s) anywhere) ss) a b p.

Lemma laid_move t s C t' s' C' ss a b : laid t s C ss a b -> good full t -> unique t' -> extends t t' -> agree a b C C' ->
  (forall f bd m, In (f, bd) (flat_map bodies ss) -> entry t s f m -> entry t' s' f m) -> laid t' s' C' ss a b.
Proof.
  intros (p & L) G U X A E. exists p. change (lay_stmt t C (entry t s) anywhere (TSBlock 0 ss) a b p) in L.
  change (lay_stmt t' C' (entry t' s') anywhere (TSBlock 0 ss) a b p).
  apply (stmt_agree t' _ _ _ C); auto. apply (stmt_table t t' G X U).
  revert L. apply stmt_entries. cbn [bodies]. eauto.
Qed.

(** ** The invariant *)
Record loaded (pend : list nat) (s : kst) : Prop := mkLoaded {
  ld_good : good full (k_tbl s);
  ld_func : tb_func (k_tbl s) = None;
  ld_halt : k_code s = [] \/ exists pre, k_code s = pre ++ [43%Z];
  ld_code : (plen (drop_halt (k_code s)) < 2^31)%Z ->
    laid (k_tbl s) s (drop_halt (k_code s)) (k_hist s) 0 (plen (drop_halt (k_code s)));
  ld_funs : Permutation (funs (tb_syms (k_tbl s))) (map fst (flat_map bodies (k_hist s)) ++ pend);
  ld_bodies : Forall (fun p => Forall (in_scope (Some (fst p))) (srefs (snd p))) (flat_map bodies (k_hist s));
  ld_refs : Forall (in_scope None) (flat_map srefs (k_hist s))
}.

Lemma loaded_init : loaded [] init_kst.
Proof.
  constructor; cbn [init_kst k_tbl k_code k_hist flat_map map app]; auto.
  - apply good_init.
  - intros _. exists []. cbn. auto.
Qed.

(** The table grows *)
Lemma loaded_tbl pend s t l : loaded pend s -> grew (k_tbl s) t l -> loaded (pend ++ map fst l) (set_tbl s t).
Proof.
  intros [G F Hh Cd Fs Bd Rf] X. pose proof (grew_extends _ _ _ X G F) as Ex. pose proof (gr_good _ _ _ X G) as G'.
  constructor; cbn [k_tbl set_tbl k_code k_hist]; auto.
  - rewrite (gr_func _ _ _ X). exact F.
  - intros L. eapply laid_move; [exact (Cd L)|exact G|apply G'|exact Ex|apply agree_refl|].
    intros f bd m _ (i & E & N). exists i. split; [|exact N]. eapply findex_ext; eauto.
  - rewrite (gr_funs _ _ _ X G), Fs, app_assoc. reflexivity.
Qed.

Lemma drop_halt_app c : drop_halt (c ++ [43%Z]) = c.
Proof. unfold drop_halt. rewrite rev_app_distr. cbn. apply rev_involutive. Qed.

(** ** [CompileState] *)
Lemma nth_firstn {A} (l : list A) : forall n i, i < n -> nth_error (firstn n l) i = nth_error l i.
Proof. induction l as [|x l IH]; intros [|n] [|i] L; cbn; auto; try lia. apply IH. lia. Qed.

Lemma resize_nth {A} (l : list (option A)) n i x : nth_error l i = Some (Some x) -> i < n -> nth_error (resize l n) i = Some (Some x).
Proof.
  intros E L. unfold resize. rewrite nth_error_app1.
  - rewrite nth_firstn by lia. exact E.
  - rewrite firstn_length. assert (i < length l) by (apply nth_error_Some; congruence). lia.
Qed.

Lemma resize_length {A} (l : list (option A)) n : length (resize l n) = n.
Proof. unfold resize. rewrite app_length, firstn_length, repeat_length. lia. Qed.

Lemma findex_count t f i : good full t -> findex t f = Some i -> i < tb_nfun t.
Proof.
  intros G E. unfold findex in E. destruct (sym_at t f) as [[id n []]|] eqn:Y; try discriminate. injection E as ->.
  apply sym_at_in in Y as (I & _). pose proof (gd_count _ _ G) as C.
  eapply Forall_forall in C; [|apply (keys_in _ _ I (NFun, i)); left; reflexivity]. exact C.
Qed.

Lemma build_foreign_ok ss : forall f f', build_foreign ss f = Some f' -> NoDup (keys ss) ->
  length f' = length f /\
  (forall j, ~ In (NForeign, j) (keys ss) -> nth_error f' j = nth_error f j) /\
  forall y i a va r c, In y ss -> sy_body y = SyForeign i a va r c -> nth_error f' i = Some (Some c).
Proof.
  induction ss as [|[id n b] ss IH]; intros f f' E N.
  - injection E as <-. split; auto. split; auto. intros y i a va r c [].
  - assert (X : forall g, build_foreign ss g = Some f' -> NoDup (keys ss) -> length g = length f ->
      (forall j, ~ In (NForeign, j) (key b) -> nth_error g j = nth_error f j) ->
      (forall i a va r c, b = SyForeign i a va r c -> nth_error g i = Some (Some c) /\ ~ In (NForeign, i) (keys ss)) ->
      length f' = length f /\
      (forall j, ~ In (NForeign, j) (key b ++ keys ss) -> nth_error f' j = nth_error f j) /\
      (forall y i a va r c, In y (mkSym id n b :: ss) -> sy_body y = SyForeign i a va r c -> nth_error f' i = Some (Some c))).
    { intros g Eg Ng Lg Kg Bg. destruct (IH g f' Eg Ng) as (L & K & V). split; [congruence|]. split.
      - intros j Hj. rewrite K, Kg; auto; intros I; apply Hj, in_app_iff; auto.
      - intros y i a va r c [<-|I] Ey; [|eauto]. cbn in Ey. destruct (Bg _ _ _ _ _ Ey) as (B1 & B2). rewrite K; auto. }
    unfold keys in N. cbn [flat_map sy_body] in N. destruct (nodup_app_l _ _ N) as (_ & N2 & N3).
    cbn [build_foreign] in E. change (keys (mkSym id n b :: ss)) with (key b ++ keys ss).
    destruct b; try (apply (X f E N2); auto; discriminate).
    destruct (Nat.ltb_spec index (length f)) as [Hi|]; try discriminate.
    apply (X _ E N2); [apply update_length| |].
    + intros j Hj. apply nth_error_update_ne. intros ->. apply Hj. left. reflexivity.
    + intros i a va r c [= <- _ _ _ <-]. split; [apply nth_error_update_eq; auto|]. apply N3. left. reflexivity.
Qed.

Definition foreign_ready (s : kst) : Prop :=
  forall y i a va r c, In y (tb_syms (k_tbl s)) -> sy_body y = SyForeign i a va r c -> nth_error (k_ftab s) i = Some (Some c).

Lemma foreign_shape t t' : same_shape t t' -> forall y i a va r c, In y (tb_syms t') -> sy_body y = SyForeign i a va r c ->
  exists y', In y' (tb_syms t) /\ sy_body y' = SyForeign i a va r c.
Proof.
  intros (E & _) y i a va r c I B. apply (in_map erase) in I. rewrite <- E in I. apply in_map_iff in I as (z & Ez & I).
  exists z. split; auto. destruct y as [yi yn yb], z as [zi zn zb]. cbn in B. subst yb. unfold erase in Ez. cbn in *.
  injection Ez as _ _ Ez. destruct zb; cbn in Ez; try discriminate; auto.
Qed.

Lemma scope_none_some f r : in_scope None r -> in_scope (Some f) r.
Proof. destruct r; cbn; try discriminate; auto. Qed.

(** What a state still has later: names, strings, statements, code (without the
    final halt) and entry points *)
Record later (s s' : kst) : Prop := mkLater {
  la_tbl : extends (k_tbl s) (k_tbl s');
  la_strings : longer s s';
  la_count : forall k, count (k_tbl s) k <= count (k_tbl s') k;
  la_hist : exists ts, k_hist s' = k_hist s ++ ts;
  la_code : ext (drop_halt (k_code s)) (drop_halt (k_code s'));
  la_entry : forall f bd m, In (f, bd) (flat_map bodies (k_hist s)) -> entry (k_tbl s) s f m -> entry (k_tbl s') s' f m
}.
Lemma later_refl s : later s s.
Proof. constructor; [apply extends_refl|apply longer_refl; auto|auto|exists []; rewrite app_nil_r; auto|apply ext_refl|auto]. Qed.
Lemma later_trans a b c : later a b -> later b c -> later a c.
Proof.
  intros [A1 A2 A0 (x & A3) A4 A5] [B1 B2 B0 (y & B3) B4 B5]. constructor.
  - eapply extends_trans; eauto.
  - eapply longer_trans; eauto.
  - intros k. etransitivity; [apply A0|apply B0].
  - exists (x ++ y). rewrite B3, A3, app_assoc. reflexivity.
  - eapply ext_trans; eauto.
  - intros f bd m I E. eapply (B5 f bd); [|eapply A5; eauto]. rewrite A3, flat_map_app. apply in_app_iff. auto.
Qed.
Lemma later_tbl s t l : loaded l s -> forall l', grew (k_tbl s) t l' -> later s (set_tbl s t).
Proof.
  intros L l' X. pose proof (grew_extends _ _ _ X (ld_good _ _ L) (ld_func _ _ L)) as Ex. constructor; auto.
  - apply (gr_strings _ _ _ X).
  - apply (gr_count _ _ _ _ X).
  - exists []. rewrite app_nil_r. auto.
  - apply ext_refl.
  - intros f bd m _ (i & E & N). exists i. split; [|exact N]. eapply findex_ext; eauto.
Qed.

Theorem compile_state_inv pend file ss s ts s' :
  loaded (pend ++ map fst (flat_map ubodies ss)) s ->
  Forall (fun p => Forall (in_scope (Some (fst p))) (usrefs (snd p))) (flat_map ubodies ss) ->
  Forall (in_scope None) (flat_map usrefs ss) ->
  compile_state file ss s = COk ts s' ->
  loaded pend s' /\ foreign_ready s' /\ (exists pre, k_code s' = pre ++ [43%Z]) /\ k_hist s' = k_hist s ++ ts /\
  (exists t1, resolve_all ss (k_tbl s) = COk ts t1 /\ same_shape t1 (k_tbl s')) /\ later s s'.
Proof.
  intros [G Fu Hh Cd Fs Bd Rf] Ub Ur E. unfold compile_state in E.
  apply cbind_ok in E as (h & s0 & E0 & E). injection E0 as <- <-.
  apply cbind_ok in E as (u1 & s1 & E1 & E). injection E1 as _ <-.
  apply cbind_ok in E as (ts0 & s2 & E2 & E). unfold kon_tbl in E2. cbn [k_tbl set_code] in E2.
  destruct (resolve_all ss (k_tbl s)) as [x t1| | | | |] eqn:Er; try discriminate. injection E2 as <- <-.
  destruct (resolve_all_inv _ _ _ _ Er) as (Kp & Ir & Pb & Ib).
  destruct (Kp (gd_unique _ _ G)) as (Sh & Fu1 & Str1). pose proof (shape_good _ _ Sh G) as G1.
  apply cbind_ok in E as (u3 & s3 & E3 & E). injection E3 as _ <-.
  apply cbind_ok in E as (u4 & s4 & E4 & E). injection E4 as _ <-.
  apply cbind_ok in E as (u5 & s5 & E5 & E).
  cbn [k_tbl k_code k_fpcs k_ftab k_lines k_hist set_tbl set_code set_fpcs set_ftab] in E5.
  destruct (build_foreign _ _) as [ftab|] eqn:Ef; try discriminate. injection E5 as _ <-.
  apply cbind_ok in E as (u6 & s6 & E6 & E).
  apply cbind_ok in E as (u7 & s7 & E7 & E). apply emit_i_ok in E7. subst s7.
  apply cbind_ok in E as (u8 & s8 & E8 & E). injection E8 as _ <-. apply cret_ok in E as (-> & ->).
  set (old := drop_halt (k_code s)) in *.
  set (fp := if 0 <? tb_nfun t1 then resize (k_fpcs s) (tb_nfun t1) else k_fpcs s) in *.
  match type of E6 with compile_all _ _ ?q = _ => set (s5 := q) in * end.
  (* the functions *)
  assert (Fn : NoDup (map (findex t1) (map fst (flat_map bodies (k_hist s)) ++ pend ++ map fst (flat_map bodies x)))).
  { eapply Permutation_NoDup; [|exact (findex_nodup _ G1)]. apply Permutation_map. rewrite (shape_funs _ _ Sh), Fs.
    apply Permutation_app_head, Permutation_app_head, Pb. }
  rewrite !map_app in Fn. destruct (nodup_app_l _ _ Fn) as (_ & Fn2 & Fn3). destruct (nodup_app_l _ _ Fn2) as (_ & Fn4 & _).
  assert (Eid : flat_map (ids t1) x = map (findex t1) (map fst (flat_map bodies x))).
  { rewrite map_map. clear. unfold ids. induction x as [|a l IH]; cbn; auto. rewrite IH, map_app. reflexivity. }
  assert (Ni : NoDup (flat_map (ids t1) x)) by (rewrite Eid; exact Fn4).
  destruct (compile_all_ok t1 (gd_unique _ _ G1) file x s5 u6 s6 (shape_refl t1) Ni E6) as ((_ & S6 & X6 & (T6 & W6) & _ & K6) & L6).
  change (k_code s5) with old in *. change (k_ftab s5) with ftab in *. change (k_fpcs s5) with fp in *.
  change (gen_instr (k_code s6) IHalt) with (k_code s6 ++ [43%Z]).
  pose proof (shape_good _ _ S6 G1) as G6.
  destruct (build_foreign_ok _ _ _ Ef (gd_keys _ _ G1)) as (_ & _ & Fr).
  (* the entry points of earlier functions *)
  assert (En : forall f bd m, In (f, bd) (flat_map bodies (k_hist s)) -> entry (k_tbl s) s f m -> entry (k_tbl s6) s6 f m).
  { intros f bd m I (i & Ei & N). exists i.
    rewrite (shape_findex _ _ f Sh) in Ei. split; [rewrite <- (shape_findex _ _ f S6); exact Ei|].
    rewrite K6.
    + unfold fp. pose proof (findex_count _ _ _ G1 Ei) as Li.
      destruct (Nat.ltb_spec 0 (tb_nfun t1)); [|lia]. apply resize_nth; auto.
    + rewrite Eid. rewrite <- Ei. intros J. apply (Fn3 (findex t1 f)).
      * apply in_map. apply in_map_iff. exists (f, bd). auto.
      * apply in_app_iff. auto. }
  split; [|split; [|split; [eexists; reflexivity|split; [reflexivity|split; [exists t1; split; auto|]]]]].
  - constructor; cbn [k_tbl k_code k_fpcs k_ftab k_lines k_hist set_tbl set_code set_fpcs set_ftab set_hist];
      change (gen_code (k_code s6) 43%Z) with (k_code s6 ++ [43%Z]); rewrite ?drop_halt_app.
    + exact G6.
    + destruct S6 as (_ & _ & _ & _ & _ & <-). rewrite Fu1. exact Fu.
    + right. eexists. reflexivity.
    + intros Lt. assert (Lo : (plen old < 2^31)%Z) by (pose proof (ext_len _ _ X6); lia).
      (* the earlier code *)
      assert (A : laid (k_tbl s6) s6 (k_code s6) (k_hist s) 0 (plen old)).
      { eapply laid_move; [exact (Cd Lo)|exact G|apply G6| |apply X6|].
        - eapply extends_trans; apply shape_extends; eauto.
        - intros f bd m I Ei. eapply En; eauto. }
      (* the new code *)
      assert (B : laid (k_tbl s6) s6 (k_code s6) x (plen old) (plen (k_code s6))).
      { eapply laid_move; [exact (L6 Lt)|exact G1|apply G6|apply shape_extends; auto|apply agree_refl|].
        intros f bd m _ (i & Ei & N). exists i. split; auto. rewrite <- (shape_findex _ _ f S6). exact Ei. }
      destruct A as (p & A), B as (q & B). exists (p ++ q). rewrite map_app. eapply lay_stmts_app; eauto.
    + rewrite (shape_funs _ _ S6), (shape_funs _ _ Sh), Fs, flat_map_app, map_app, <- app_assoc.
      apply Permutation_app_head. rewrite Permutation_app_comm. apply Permutation_app_tail, Pb.
    + rewrite flat_map_app. apply Forall_app. split; auto. apply Forall_forall. intros [f b'] I. cbn [fst snd].
      destruct (Ib _ _ I) as (b & J & Inc). eapply Forall_forall in Ub; [|exact J]. cbn [fst snd] in Ub.
      eapply incl_Forall; eauto.
    + rewrite flat_map_app. apply Forall_app. split; auto. eapply incl_Forall; eauto.
  - intros y i a va r c I B.
    cbn [k_tbl k_code k_fpcs k_ftab k_lines k_hist set_tbl set_code set_fpcs set_ftab set_hist] in *. rewrite T6.
    destruct (foreign_shape _ _ S6 _ _ _ _ _ _ I B) as (z & Iz & Bz). eauto.
  - constructor; cbn [k_tbl k_code k_fpcs k_ftab k_lines k_hist set_tbl set_code set_fpcs set_ftab set_hist];
      change (gen_code (k_code s6) 43%Z) with (k_code s6 ++ [43%Z]); rewrite ?drop_halt_app; auto.
    + eapply extends_trans; apply shape_extends; eauto.
    + destruct W6 as (w & W6). exists w. rewrite <- Str1. exact W6.
    + destruct Sh as (_ & N1 & N2 & N3 & _), S6 as (_ & M1 & M2 & M3 & _). intros []; cbn; lia.
    + eauto.
Qed.

(** ** [Tiny_CompileString] and the host *)
Lemma run_uses_inv mods ss : (forall m args as_ x b x', mods m args as_ x = COk b x' -> forall pend, loaded pend x -> loaded pend x') ->
  forall s u s', run_uses mods ss s = COk u s' -> forall pend, loaded pend s -> loaded pend s'.
Proof.
  intros Hm. induction ss as [|st ss IH]; intros s u s' E pend L; cbn [run_uses] in E.
  - apply cret_ok in E as (_ & ->). exact L.
  - destruct st; try (eapply IH; eauto; fail).
    apply cbind_ok in E as (u1 & s1 & E1 & E). eapply IH; [exact E|].
    destruct (existsb _ _); try discriminate. destruct (128 <? length _); try discriminate.
    apply cbind_ok in E1 as (b & s2 & E2 & E1). destruct b; try discriminate. apply cret_ok in E1 as (_ & ->). eauto.
Qed.

Definition compiled (s : kst) : Prop := foreign_ready s /\ exists pre, k_code s = pre ++ [43%Z].

Lemma compile_string_inv n mods file src ts s s' :
  (forall m args as_ x b x', mods m args as_ x = COk b x' -> forall pend, loaded pend x -> loaded pend x') ->
  compile_string n mods file src s = COk ts s' ->
  (forall pend, loaded pend s -> loaded pend s') /\ (forall pend, loaded pend s -> compiled s').
Proof.
  intros Hm E. unfold compile_string in E. destruct (compile_body n mods file src s) as [x s1| | | | |] eqn:B; try discriminate.
  injection E as <- <-. unfold compile_body in B.
  apply cbind_ok in B as (n1 & s2 & E1 & B). injection E1 as _ <-.
  apply cbind_ok in B as (ss & s3 & E2 & B).
  destruct (parse_program n (start_parse (k_tbl s) src)) as [a p| | | | |] eqn:P; try discriminate. injection E2 as <- <-.
  apply cbind_ok in B as (n2 & s4 & E3 & B). injection E3 as _ <-.
  apply cbind_ok in B as (u5 & s5 & E5 & B). apply cbind_ok in B as (u6 & s6 & E6 & B).
  assert (s6 = s5) as -> by (destruct (forallb _ _); [injection E6 as _ <-; auto|discriminate]).
  apply cbind_ok in B as (ts & s7 & E7 & B). apply cbind_ok in B as (u8 & s8 & E8 & B).
  assert (s8 = s7) as -> by (destruct (forallb _ _); [injection E8 as _ <-; auto|discriminate]).
  apply cret_ok in B as (-> & ->).
  assert (X : forall pend, loaded pend s -> loaded pend s7 /\ foreign_ready s7 /\ exists pre, k_code s7 = pre ++ [43%Z]).
  { intros pend L. destruct (program_inv _ _ _ _ _ (ld_func _ _ L) P) as (Gr & Sc).
    pose proof (loaded_tbl _ _ _ _ L Gr) as L3. pose proof (run_uses_inv _ _ Hm _ _ _ E5 _ L3) as L5.
    destruct (compile_state_inv _ _ _ _ _ _ L5 (gr_bodies _ _ _ Gr) Sc E7) as (A & B & C & _). auto. }
  split; intros pend L; [apply X; auto|]. destruct (X _ L) as (_ & A & B). split; auto.
Qed.

Lemma host_loaded n o s s' pend : host n o s = COk tt s' -> loaded pend s -> loaded pend s'.
Proof.
  intros E L. destruct (host_inv _ _ _ _ E (ld_good _ _ L)) as (Es & Gr). rewrite Es.
  pose proof (loaded_tbl _ _ _ _ L Gr) as X. rewrite app_nil_r in X. exact X.
Qed.

Theorem steps_loaded s s' : steps s s' -> forall pend, loaded pend s -> loaded pend s'.
Proof.
  induction 1 as [s|n o s s1 s2 E S IH|n mods file src ts s s1 s2 Hm IHm E S IH]; intros pend L; auto.
  - apply IH. eapply host_loaded; eauto.
  - apply IH. eapply compile_string_inv; eauto.
Qed.

Lemma two_hosts n o m o' s s' pend : cbind (host n o) (fun _ => host m o') s = COk tt s' -> loaded pend s -> loaded pend s'.
Proof.
  intros E L. apply cbind_ok in E as ([] & s1 & E1 & E). eapply host_loaded; [exact E|]. eapply host_loaded; [exact E1|]. exact L.
Qed.

Lemma create_loaded s : create_state = COk tt s -> loaded [] s.
Proof. unfold create_state. intros E. exact (two_hosts _ _ _ _ _ _ _ E loaded_init). Qed.

Theorem reachable_loaded s : reachable s -> loaded [] s.
Proof. intros (s0 & E & S). eapply steps_loaded; [exact S|]. apply create_loaded; auto. Qed.

Lemma compile_reachable n mods file src ts s s' :
  reachable s -> (forall m args as_ x b x', mods m args as_ x = COk b x' -> steps x x') ->
  compile_string n mods file src s = COk ts s' -> loaded [] s' /\ compiled s'.
Proof.
  intros R Hm E. assert (Hm' : forall m args as_ x b x', mods m args as_ x = COk b x' -> forall pend, loaded pend x -> loaded pend x')
    by (intros; eapply steps_loaded; eauto).
  pose proof (reachable_loaded _ R) as L. destruct (compile_string_inv _ _ _ _ _ _ _ Hm' E) as (A & B). eauto.
Qed.

(** ** What was compiled stays *)
Lemma host_later n o s s' pend : host n o s = COk tt s' -> loaded pend s -> later s s'.
Proof.
  intros E L. destruct (host_inv _ _ _ _ E (ld_good _ _ L)) as (Es & Gr). rewrite Es. eapply later_tbl; eauto.
Qed.

Definition safe_macros (mods : text -> macro) : Prop := forall m args as_ x b x', mods m args as_ x = COk b x' ->
  forall pend, loaded pend x -> loaded pend x' /\ later x x'.

Lemma run_uses_later mods ss : safe_macros mods ->
  forall s u s', run_uses mods ss s = COk u s' -> forall pend, loaded pend s -> later s s'.
Proof.
  intros Hm. induction ss as [|st ss IH]; intros s u s' E pend L; cbn [run_uses] in E.
  - apply cret_ok in E as (_ & ->). apply later_refl.
  - destruct st; try (eapply IH; eauto; fail).
    apply cbind_ok in E as (u1 & s1 & E1 & E).
    destruct (existsb _ _); try discriminate. destruct (128 <? length _); try discriminate.
    apply cbind_ok in E1 as (b & s2 & E2 & E1). destruct b; try discriminate. apply cret_ok in E1 as (_ & ->).
    destruct (Hm _ _ _ _ _ _ E2 _ L) as (L2 & La). eapply later_trans; [exact La|]. eapply IH; eauto.
Qed.

Lemma compile_string_later n mods file src ts s s' pend : safe_macros mods -> loaded pend s ->
  compile_string n mods file src s = COk ts s' -> later s s'.
Proof.
  intros Hm L E. unfold compile_string in E. destruct (compile_body n mods file src s) as [x s1| | | | |] eqn:B; try discriminate.
  injection E as <- <-. unfold compile_body in B.
  apply cbind_ok in B as (n1 & s2 & E1 & B). injection E1 as _ <-.
  apply cbind_ok in B as (ss & s3 & E2 & B).
  destruct (parse_program n (start_parse (k_tbl s) src)) as [a p| | | | |] eqn:P; try discriminate. injection E2 as <- <-.
  apply cbind_ok in B as (n2 & s4 & E3 & B). injection E3 as _ <-.
  apply cbind_ok in B as (u5 & s5 & E5 & B). apply cbind_ok in B as (u6 & s6 & E6 & B).
  assert (s6 = s5) as -> by (destruct (forallb _ _); [injection E6 as _ <-; auto|discriminate]).
  apply cbind_ok in B as (ts & s7 & E7 & B). apply cbind_ok in B as (u8 & s8 & E8 & B).
  assert (s8 = s7) as -> by (destruct (forallb _ _); [injection E8 as _ <-; auto|discriminate]).
  apply cret_ok in B as (-> & ->).
  destruct (program_inv _ _ _ _ _ (ld_func _ _ L) P) as (Gr & Sc).
  pose proof (loaded_tbl _ _ _ _ L Gr) as L3. pose proof (run_uses_later _ _ Hm _ _ _ E5 _ L3) as La5.
  assert (L5 : loaded (pend ++ map fst (flat_map ubodies a)) s5).
  { eapply run_uses_inv; [|exact E5|exact L3]. intros m args as_ y b y' Em pd Lp. apply (Hm _ _ _ _ _ _ Em _ Lp). }
  destruct (compile_state_inv _ _ _ _ _ _ L5 (gr_bodies _ _ _ Gr) Sc E7) as (_ & _ & _ & _ & _ & La7).
  eapply later_trans; [eapply later_tbl; eauto|]. eapply later_trans; eauto.
Qed.

Theorem steps_later s s' : steps s s' -> forall pend, loaded pend s -> later s s'.
Proof.
  induction 1 as [s|n o s s1 s2 E S IH|n mods file src ts s s1 s2 Hm IHm E S IH]; intros pend L.
  - apply later_refl.
  - eapply later_trans; [eapply host_later; eauto|]. eapply IH. eapply host_loaded; eauto.
  - assert (Sm : safe_macros mods).
    { intros m args as_ x b x' Em pd Lp. split; [eapply steps_loaded; eauto|]. eapply IHm; eauto. }
    eapply later_trans; [eapply compile_string_later; eauto|]. eapply IH.
    eapply compile_string_inv; [|exact E|exact L]. intros. eapply steps_loaded; eauto.
Qed.

(** ** Finding the code of a function *)
Lemma lay_in_stmts ls : forall a b p l, lay_stmts ls a b p -> In l ls -> exists a' b' p', l a' b' p'.
Proof.
  induction ls as [|x ls IH]; intros a b p l L I; [contradiction|]. destruct L as (m & p1 & p2 & L1 & L2 & _).
  destruct I as [<-|I]; eauto.
Qed.

Lemma lay_body t C F f body s : forall T a b p, lay_stmt t C F T s a b p -> In (f, body) (bodies s) ->
  exists m e, F f m /\ lay_fun t C (fun x y => exists q, lay_stmt t C F anywhere body x y q) f m e.
Proof.
  induction s using tstmt_ind'; intros T a0 b0 p0 L I; cbn [lay_stmt bodies] in *; try contradiction.
  - apply in_flat_map in I as (s & I & J). eapply Forall_forall in H; [|exact I].
    destruct (lay_in_stmts _ _ _ _ (lay_stmt t C F T s) L) as (a' & b' & p' & L'); [apply in_map; auto|]. eauto.
  - destruct L as (-> & m & J & Ff & L). destruct I as [[= -> ->]|I]; [eauto|].
    destruct L as (i & args & locals & ret & m1 & m2 & _ & _ & _ & (q & L4) & _). eauto.
  - destruct b as [b|].
    + destruct L as (m1 & m2 & m3 & m4 & p1 & p2 & _ & _ & L1 & _ & L2 & _). apply in_app_iff in I as [I|I]; eauto.
    + destruct L as (m1 & m2 & _ & _ & L). eauto.
  - destruct L as (_ & m1 & m2 & m3 & q & _ & _ & L & _). eauto.
  - destruct L as (_ & m0 & m1 & m2 & m3 & m4 & q1 & q2 & q3 & L1 & _ & _ & L2 & L3 & _).
    apply in_app_iff in I as [I|I]; [eauto|]. apply in_app_iff in I as [I|I]; eauto.
Qed.

(** ** The program in a state *)
Definition find_body (l : list (nat * tstmt)) (f : nat) : option tstmt :=
  option_map snd (find (fun p => fst p =? f) l).
Lemma find_body_in l f b : find_body l f = Some b -> In (f, b) l.
Proof.
  unfold find_body. destruct (find _ l) as [[g c]|] eqn:E; try discriminate. intros [= <-].
  apply find_some in E as (I & E). apply Nat.eqb_eq in E. cbn in E. subst. exact I.
Qed.

(** What the statements compiled so far mean *)
Definition program_of {H} (s : kst) (callees : nat -> list value -> fprog H) : prog H :=
  mkProg H (k_tbl s) (find_body (flat_map bodies (k_hist s))) callees 128 64.

(** Sizes that fit the types of the C program *)
Definition fits_c (s : kst) : Prop :=
  (plen (k_code s) < 2^31)%Z /\ (Z.of_nat (tb_nglob (k_tbl s)) < 2^32)%Z /\
  (Z.of_nat (tb_nfun (k_tbl s)) < 2^32)%Z /\ (Z.of_nat (tb_nforeign (k_tbl s)) < 2^32)%Z.

Lemma count_of t y k : good full t -> In y (tb_syms t) -> In k (key (sy_body y)) -> snd k < count t (fst k).
Proof.
  intros G I J. pose proof (gd_count _ _ G) as C. eapply Forall_forall in C; [exact C|]. eapply keys_in; eauto.
Qed.

Lemma scope_ref_ok t f args locals i ret n r : good full t -> sym_at t f = Some (mkSym f n (SyFunc i args locals ret)) ->
  in_scope (Some f) r -> ref_ok t (length args) r.
Proof.
  intros G Y S. pose proof (good_at _ _ _ _ G Y) as (Pl & Pa). cbn [full] in Pa.
  destruct r as [id|id|g j|g j]; cbn [ref_ok]; auto; injection S as ->; intros k E; unfold lidx in E; cbn [var_of] in E; rewrite Y in E.
  - destruct (nth_error locals j) as [v|] eqn:V; try discriminate. cbn in E. injection E as <-. rewrite (Pl _ _ V). lia.
  - destruct (nth_error args j) as [v|] eqn:V; try discriminate. cbn in E. injection E as <-. rewrite (Pa _ _ V). lia.
Qed.

Theorem loaded_linked {H} s (callees : nat -> list value -> fprog H) props : loaded [] s -> compiled s -> fits_c s ->
  linked (program_of s callees) (machine_of s callees props) (entry (k_tbl s) s).
Proof.
  intros L (Fr & pre & Ec) (Fc & Fg & Ff & Fx). pose proof (ld_good _ _ L) as G.
  assert (Lp : (plen pre < 2^31)%Z) by (rewrite Ec, plen_app in Fc; cbn in Fc; lia).
  pose proof (ld_code _ _ L) as Cd. rewrite Ec, drop_halt_app in Cd. specialize (Cd Lp).
  constructor; cbn [program_of machine_of p_tbl p_room p_depth p_body p_callee m_stack m_depth m_strings m_nglobals m_foreign m_fpcs m_code];
    try reflexivity.
  - cbn. lia.
  - intros id i E. unfold gidx in E. destruct (sym_at (k_tbl s) id) as [[yi yn []]|] eqn:Y; try discriminate. injection E as ->.
    apply sym_at_in in Y as (I & _). pose proof (count_of _ _ (NGlob, i) G I ltac:(left; reflexivity)) as X. cbn in X. lia.
  - intros id fs E. unfold sfields in E. destruct (sym_at (k_tbl s) id) as [[yi yn []]|] eqn:Y; try discriminate.
    destruct defined; try discriminate. injection E as ->. apply (good_at _ _ _ _ G Y).
  - intros y i a va r c I B. split.
    + pose proof (count_of _ _ (NForeign, i) G I ltac:(rewrite B; left; reflexivity)) as X. cbn in X. lia.
    + rewrite nth_error_map, (Fr _ _ _ _ _ _ I B). reflexivity.
  - intros y i params locals ret body I B Eb. apply find_body_in in Eb.
    assert (Y : sym_at (k_tbl s) (sy_id y) = Some y) by (apply in_sym_at; auto; apply G).
    destruct y as [f n yb]. cbn [sy_body sy_id] in *. subst yb.
    split; [pose proof (count_of _ _ (NFun, i) G I ltac:(left; reflexivity)) as X; cbn in X; lia|].
    destruct Cd as (p & Cd). change (lay_stmt (k_tbl s) pre (entry (k_tbl s) s) anywhere (TSBlock 0 (k_hist s)) 0 (plen pre) p) in Cd.
    assert (Cd' : lay_stmt (k_tbl s) (k_code s) (entry (k_tbl s) s) anywhere (TSBlock 0 (k_hist s)) 0 (plen pre) p).
    { eapply stmt_agree; [exact Cd|]. rewrite Ec. apply (proj2 (ext_app pre [43%Z])). }
    destruct (lay_body _ _ _ f body _ _ _ _ _ Cd' Eb) as (m & e & (j & Ej & Nj) & i' & args' & locals' & ret' & m1 & m2 & Es & Ll & Lo & (q & Lb) & Lr).
    rewrite Y in Es. cbn in Es. injection Es as <- <- <- <-.
    unfold findex in Ej. rewrite Y in Ej. injection Ej as <-.
    split; [exact Ll|]. split.
    + pose proof (ld_bodies _ _ L) as Bd. eapply Forall_forall in Bd; [|exact Eb]. cbn [fst snd] in Bd.
      eapply Forall_impl; [|exact Bd]. intros r Sr. eapply scope_ref_ok; eauto.
    + exists m, m1, m2, e, q. split; [rewrite nth_error_map, Nj; reflexivity|]. auto.
Qed.
