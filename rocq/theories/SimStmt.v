(** * Laid out code computes what Source.v says: statements, functions, programs *)
From Verif Require Import Base Token Float64 Values Heap Code CodeSpec Syntax Symbols Compile Layout LayoutProofs
  VM VMBasics VMSpec VMInv VMFrame VMProofs Source Simulate SimExpr SimEval.
Local Open Scope nat_scope.

Section SimS.
Context {H : Type} (P : prog H) (M : machine H) (Fn : nat -> Z -> Prop) (LK : linked P M Fn).
Notation T := (p_tbl P).
Notation C := (m_code M).
Notation inst := (inst P).

Section Stmt.
Variable n : nat.
Variable enter : nat -> nat -> sym -> list value -> sst H -> outcome (value * sst H).
Hypothesis EN : enter_ok P M n enter.
Notation ev := (eval P enter).
Notation refs K := (Forall (ref_ok T (k_nargs K))).

Lemma ev_ok K fe e a b temps s t : refs K (erefs e) -> lay T C e a b -> inst K a temps fe s t ->
  sim M n (dep K) t (ev (dep K) fe e (hgt K temps) s) (fun x t' => inst K b (fst x :: temps) fe (snd x) t').
Proof. intros R L I. exact (eval_ok P M Fn LK n enter EN e K fe R a b temps s t L I). Qed.

(** ** Assignments *)
Lemma assigned_ok K fe op l r a b temps s t : refs K (erefs l) -> refs K (erefs r) ->
  lay_rhs T C op l r a b -> inst K a temps fe s t ->
  sim M n (dep K) t (assigned P enter (dep K) fe op l r (hgt K temps) s)
    (fun x t' => inst K b (fst x :: temps) fe (snd x) t').
Proof.
  intros Rl Rr L IN. unfold assigned, lay_rhs in *.
  pose proof (eval_ok P M Fn LK n enter EN l K fe Rl) as C1.
  pose proof (eval_ok P M Fn LK n enter EN r K fe Rr) as C2.
  destruct op; cbn [assign_op compound_op] in *; try (eapply ev_ok; eauto; fail);
    match goal with |- context [step_of_float ?bo _ _] =>
      refine (sim_lbin P M n enter K fe _ bo _ _ _ _ _ C1 C2 _ _ _ _ _ L IN) end;
    first [ left; auto; fail | right; left; auto; fail
          | right; right; split; [discriminate|]; split; [discriminate|]; auto ].
Qed.

Lemma assign_ok K fe op l r a b s t : refs K (erefs l) -> refs K (erefs r) ->
  lay_assign T C op l r a b -> inst K a [] fe s t ->
  sim M n (dep K) t (assign P enter (dep K) (hgt K []) fe op l r s)
    (fun x t' => inst K b [] (fst x) (snd x) t').
Proof.
  intros Rl Rr L IN. destruct l; cbn [lay_assign assign] in *; try contradiction.
  - (* variable *)
    destruct L as (m & L1 & L2).
    eapply sim_bind; [eapply assigned_ok; eauto|]. intros [x s1] t1 I1. cbn [fst snd] in *.
    inversion Rl; subst. eapply sim_set; eauto.
  - (* field *)
    destruct L as (m1 & m2 & k & L1 & Fk & L2 & L3). pose proof Rl as Rl'. cbn [erefs] in Rl'.
    eapply sim_bind; [eapply assigned_ok; eauto|]. intros [x s1] t1 I1. cbn [fst snd] in *.
    rewrite <- (hgt_cons K x []).
    eapply sim_bind; [eapply ev_ok; eauto|]. intros [o s2] t2 I2. cbn [fst snd] in *.
    destruct (field_number P (tag_of l) f) as [j|] eqn:Fj; [|exact I].
    assert (k = Z.of_nat j).
    { unfold field_number, fields_of in Fj. unfold field_no in Fk. destruct (tag_of l); try discriminate.
      destruct (sym_at T id) as [[? ? []]|]; try discriminate. destruct (field_index fields f) as [[]|]; try discriminate.
      cbn in Fj. congruence. }
    subst k. eapply sim_bind; [eapply sim_put_field; eauto|]. intros s3 t3 I3. apply sim_ok. exact I3.
  - (* index *)
    destruct L as (m1 & m2 & m3 & f & -> & L1 & L2 & L3 & L4).
    pose proof Rl as Rl'. cbn [erefs] in Rl'. apply Forall_app in Rl'. destruct Rl' as [Ra Ri].
    eapply sim_bind; [eapply (ev_ok K fe l1 _ _ []); eauto|]. intros [x s1] t1 I1. cbn [fst snd] in *.
    rewrite <- (hgt_cons K x []).
    eapply sim_bind; [eapply ev_ok; eauto|]. intros [y s2] t2 I2. cbn [fst snd] in *.
    rewrite <- (hgt_cons K y [x]).
    eapply sim_bind; [eapply assigned_ok; eauto|]. intros [z s3] t3 I3. cbn [fst snd] in *.
    rewrite <- (hgt_cons K z [y; x]). unfold call_id. destruct (sym_at T f) as [g|] eqn:Sf; [|exact I].
    eapply sim_bind.
    { eapply (sim_call P M Fn LK n enter EN K _ _ _ _ [x; y; z] []); [exact I3|exact L4|reflexivity| |reflexivity].
      intros q [= <-]. eapply in_sym_at; eauto. }
    intros [v s4] t4 I4. cbn [fst snd] in *. apply sim_ok. cbn.
    destruct I4 as (E & R & nobj & mx & ->). split; [auto|]. split; [auto|]. eauto.
Qed.

(** ** Control *)
Definition returned (K : ctx) (v : value) (s : sst H) (t' : thread H) : Prop :=
  exists f fr, k_frames K = f :: fr /\
    t_pc t' = f_pc f /\ t_fp t' = f_fp f /\ t_stk t' = k_below K /\ t_frames t' = fr /\ t_ret t' = v /\ shared s t'.

Definition spost (K : ctx) (J : bool -> Z -> Prop) (b : Z) (x : signal * fenv * sst H) (t' : thread H) : Prop :=
  let '(sg, fe, s) := x in
  match sg with
  | Go => inst K b [] fe s t'
  | Brk => exists x, J true x /\ inst K x [] fe s t'
  | Cont => exists x, J false x /\ inst K x [] fe s t'
  | Ret v => returned K v s t'
  end.

Definition sok (st : tstmt) : Prop :=
  forall K J a b p infun fe s t, lay_stmt T C Fn J st a b p -> refs K (srefs st) ->
    (infun = true -> exists f fr, k_frames K = f :: fr /\ f_nargs f = k_nargs K) ->
    inst K a [] fe s t ->
    sim M n (dep K) t (Source.exec P enter n infun (dep K) (hgt K []) st fe s) (spost K J b).

(** a conditional jump pays for a step *)
Lemma sim_jz_paid {A} m K a x b v temps fe s t (k : bool -> outcome A) (Q : A -> thread H -> Prop) :
  inst K a (v :: temps) fe s t -> jz C a x b ->
  (forall (c : bool) t', inst K (if c then b else x) temps fe s t' -> sim M m (dep K) t' (k c) Q) ->
  sim M (S m) (dep K) t (obind (is_true v) k) Q.
Proof.
  intros IN J X. destruct (is_true v) as [c| | |] eqn:Tv.
  - destruct IN as (E & R & ret & nobj & mx & ->). destruct J as (j & D & J). pose proof (decode_range _ _ _ _ D).
    cbn [obind]. eapply sim_step with (t1 := conf K (if c then b else x) temps fe s ret nobj mx);
      [cbn; unfold dep; lia| |apply X].
    + eapply cyc_instr; [cbn; lia|exact D|]. exists 0. cbn. destruct v; try discriminate Tv. cbn in Tv |- *.
      injection Tv as ->. destruct c; cbn; [|rewrite J]; reflexivity.
    + split; [auto|]. split; [rewrite hgt_cons in R; lia|]. eauto.
  - destruct IN as (E & R & ret & nobj & mx & ->). destruct J as (j & D & J). pose proof (decode_range _ _ _ _ D).
    exists (conf K a (v :: temps) fe s ret nobj mx). split; [constructor|]. split; [cbn; unfold dep; lia|].
    eapply cyc_abort; [cbn; lia|exact D|]. exists 0. destruct v; try discriminate Tv; reflexivity.
  - exact I.
  - destruct v; discriminate Tv.
Qed.

Lemma while_ok K c head m1 m2 exit (m3 cont : Z) (body step : fenv -> sst H -> outcome (signal * fenv * sst H)) :
  refs K (erefs c) -> lay T C c head m1 -> jz C m1 exit m2 ->
  (forall fe s t, inst K m2 [] fe s t -> sim M n (dep K) t (body fe s) (spost K (targets exit cont) m3)) ->
  (forall fe s t, inst K m3 [] fe s t \/ inst K cont [] fe s t ->
     sim M n (dep K) t (step fe s) (fun x t' => let '(sg, fe', s') := x in
       match sg with Go => inst K head [] fe' s' t' | Ret v => returned K v s' t' | _ => True end)) ->
  forall j, j <= n -> forall fe s t, inst K head [] fe s t ->
  sim M j (dep K) t (repeat_while j (eval_cond P enter (dep K) (hgt K []) c) body step fe s)
    (spost K (fun _ _ => False) exit).
Proof.
  intros Rc Lc Jz HB HS. induction j as [|j IH]; intros Lj fe s t IN; cbn [repeat_while].
  - intros floor B. eapply loop0; eauto. destruct IN as (_ & _ & ? & ? & ? & ->). cbn. unfold dep. lia.
  - unfold eval_cond.
    assert (AS : forall (X : outcome (value * sst H)) (k : bool * sst H -> outcome (signal * fenv * sst H)),
      obind (obind X (fun p => let '(v, s1) := p in obind (is_true v) (fun b => Ok (b, s1)))) k =
      obind X (fun p => let '(v, s1) := p in obind (is_true v) (fun b => k (b, s1)))).
    { intros [[v s1]| | |] k; cbn; auto. destruct (is_true v); reflexivity. }
    rewrite AS. clear AS.
    eapply sim_bind. { eapply sim_fuel; [eapply ev_ok; eauto|lia]. }
    intros [v s1] t1 I1. cbn [fst snd] in *.
    eapply sim_jz_paid; eauto. intros [] t2 I2.
    + eapply sim_bind. { eapply sim_fuel; [eapply HB; eauto|lia]. }
      intros [[sg fe1] s2] t3 I3. cbn [spost] in I3.
      assert (NX : forall t, inst K m3 [] fe1 s2 t \/ inst K cont [] fe1 s2 t ->
        sim M j (dep K) t
          (obind (step fe1 s2) (fun x => let '(sg', fe2, s3) := x in
             match sg' with Go => repeat_while j (eval_cond P enter (dep K) (hgt K []) c) body step fe2 s3
             | Ret v0 => Ok (Ret v0, fe2, s3) | _ => UB end)) (spost K (fun _ _ => False) exit)).
      { intros t4 I4. eapply sim_bind. { eapply sim_fuel; [eapply HS; eauto|lia]. }
        intros [[sg' fe2] s3] t5 I5. cbn beta iota in I5. destruct sg'; try exact I.
        - apply IH; [lia|exact I5]. - apply sim_ok. exact I5. }
      destruct sg.
      * apply NX. auto.
      * destruct I3 as (x & -> & I3). apply sim_ok. exact I3.
      * destruct I3 as (x & -> & I3). apply NX. auto.
      * apply sim_ok. exact I3.
    + apply sim_ok. exact I2.
Qed.

Lemma sim_return K a b v i temps fe s t : inst K a (match i with IReturn => temps | _ => v :: temps end) fe s t ->
  at_i C a i b -> (i = IReturn /\ v = VNull) \/ i = IReturnValue ->
  (exists f fr, k_frames K = f :: fr /\ f_nargs f = k_nargs K) ->
  forall Q : signal * fenv * sst H -> thread H -> Prop, (forall t', returned K v s t' -> Q (Ret v, fe, s) t') ->
  sim M n (dep K) t (Ok (Ret v, fe, s)) Q.
Proof.
  intros IN D O (f & fr & Ef & Na) Q X. pose proof IN as ((E1 & E2) & _ & _).
  eapply sim_i; eauto. intros callf ret nobj mx.
  assert (S : exists u, VM.exec M callf (norm i) (conf K b (match i with IReturn => temps | _ => v :: temps end) fe s ret nobj mx) =
     pop_indir u /\ t_ret u = v /\ t_stk u = temps ++ rev (e_locals fe) ++ rev (e_args fe) ++ k_below K /\
     t_fp u = length (e_args fe) + length (k_below K) /\ t_frames u = k_frames K /\ shared s u).
  { destruct O as [[-> ->]| ->]; cbn [norm VM.exec]; unfold pop, conf; cbn [t_stk app obind];
      eexists; split; [reflexivity| |reflexivity|]; cbn; repeat split; reflexivity. }
  destruct S as (u & -> & U1 & U2 & U3 & U4 & U5). unfold pop_indir. rewrite U2, U3, U4, Ef, Na.
  rewrite <- E1, (proj2 (Nat.leb_le _ _)) by lia.
  set (st := temps ++ rev (e_locals fe) ++ rev (e_args fe) ++ k_below K).
  assert (Ls : length st = length temps + (length (e_locals fe) + (length (e_args fe) + length (k_below K)))).
  { unfold st. rewrite !app_length, !rev_length. reflexivity. }
  unfold cut. rewrite (proj2 (Nat.leb_le (length (e_args fe) + length (k_below K)) (length st))) by lia.
  rewrite (proj2 (Nat.leb_le (length (e_args fe) + length (k_below K) - length (e_args fe)) (length st))) by lia.
  eexists. split; [reflexivity|]. apply X. exists f, fr. split; [auto|]. cbn. repeat split; try apply U5; auto.
  replace (length st - (length (e_args fe) + length (k_below K) - length (e_args fe)))
    with (length (temps ++ rev (e_locals fe) ++ rev (e_args fe))) by (rewrite !app_length, !rev_length; lia).
  unfold st. replace (temps ++ rev (e_locals fe) ++ rev (e_args fe) ++ k_below K)
    with ((temps ++ rev (e_locals fe) ++ rev (e_args fe)) ++ k_below K) by (rewrite <- !app_assoc; reflexivity).
  rewrite skipn_app, skipn_all, Nat.sub_diag. reflexivity.
Qed.

Lemma seq_ok K J infun : forall ss, Forall sok ss -> forall a b p fe s t,
  lay_stmts (map (lay_stmt T C Fn J) ss) a b p -> refs K (flat_map srefs ss) ->
  (infun = true -> exists f fr, k_frames K = f :: fr /\ f_nargs f = k_nargs K) ->
  inst K a [] fe s t ->
  sim M n (dep K) t (seq (map (Source.exec P enter n infun (dep K) (hgt K [])) ss) fe s) (spost K J b).
Proof.
  induction 1 as [|st ss S F IH]; intros a b p fe s t L R IFn IN; cbn [map lay_stmts seq flat_map] in *.
  - destruct L as [-> _]. apply sim_ok. exact IN.
  - destruct L as (m & p1 & p2 & L1 & L2 & _). apply Forall_app in R. destruct R as [R1 R2].
    eapply sim_bind; [eapply S; eauto|]. intros [[sg fe1] s1] t1 I1. cbn [spost] in I1.
    destruct sg; [eapply IH; eauto|apply sim_ok; exact I1..].
Qed.

Lemma exec_ok st : sok st.
Proof.
  induction st using tstmt_ind'; intros K J aa bb p infun fe s t L R IFn IN; cbn [lay_stmt Source.exec srefs] in *.
  - (* call *)
    destruct L as ((m & L1 & L2) & ->).
    eapply sim_bind. { eapply eval_list_ok; [apply eoks_computes|exact L1|exact IN]; auto.
      apply Forall_forall. intros e _. apply (eval_ok P M Fn LK n enter EN). }
    intros [vs s1] t1 (Lv & I1). cbn [fst snd] in *. rewrite map_length in Lv.
    destruct (reference_function T f) as [y|] eqn:Ry; [|exact I].
    replace (hgt K [] + length vs) with (hgt K (rev vs ++ [])).
    2:{ unfold hgt. rewrite app_length, rev_length. cbn. lia. }
    eapply sim_bind.
    { eapply sim_call; [exact LK|exact EN|exact I1|exact L2| | |reflexivity].
      - rewrite Lv. reflexivity. - intros x [= <-]. eapply in_reffun; eauto. }
    intros [v s2] t2 (E & Rm & nobj & mx & ->). cbn [fst snd] in *. apply sim_ok. cbn.
    split; [auto|]. split; [auto|]. eauto.
  - (* declaration *)
    destruct L as ((m & L1 & L2) & ->). cbn in L1. inversion R; subst.
    eapply sim_bind; [eapply (ev_ok K fe e _ _ []); eauto|]. intros [x s1] t1 I1. cbn [fst snd] in *.
    eapply sim_bind; [eapply sim_set; eauto|]. intros [fe1 s2] t2 I2. apply sim_ok. exact I2.
  - (* assignment *)
    destruct L as (L & ->). apply Forall_app in R. destruct R as [R1 R2].
    eapply sim_bind; [eapply assign_ok; eauto|]. intros [fe1 s2] t2 I2. apply sim_ok. exact I2.
  - destruct L as [-> _]. apply sim_ok. exact IN.
  - contradiction.
  - eapply seq_ok; eauto.
  - (* function *)
    destruct L as (-> & m & J1 & _). eapply sim_jmp'; eauto. intros t1 I1. apply sim_ok. exact I1.
  - (* if *)
    assert (AS : forall (X : outcome (value * sst H)) (k : bool * sst H -> outcome (signal * fenv * sst H)),
      obind (obind X (fun p => let '(v, s1) := p in obind (is_true v) (fun b => Ok (b, s1)))) k =
      obind X (fun p => let '(v, s1) := p in obind (is_true v) (fun b => k (b, s1)))).
    { intros [[v s1]| | |] k; cbn; auto. destruct (is_true v); reflexivity. }
    unfold eval_cond. rewrite AS. clear AS. destruct b as [s2|].
    + destruct L as (m1 & m2 & m3 & m4 & p1 & p2 & L1 & L2 & L3 & L4 & L5 & ->).
      apply Forall_app in R. destruct R as [R1 R2]. apply Forall_app in R2. destruct R2 as [R2 R3].
      eapply sim_bind; [eapply (ev_ok K fe c _ _ []); eauto|]. intros [x s1] t1 I1. cbn [fst snd] in *.
      eapply sim_jz; eauto. intros [] t2 I2.
      * match goal with |- sim _ _ _ _ ?r _ => replace r with (obind r (fun y => Ok y)) by (destruct r; reflexivity) end.
        eapply sim_bind; [eapply IHst; eauto|]. intros [[sg fe1] s3] t3 I3. cbn [spost] in I3.
        destruct sg; [|apply sim_ok; exact I3..]. eapply sim_jmp'; eauto. intros t4 I4. apply sim_ok. exact I4.
      * eapply (H0 s2 eq_refl); eauto.
    + destruct L as (m1 & m2 & L1 & L2 & L3). apply Forall_app in R. destruct R as [R1 R2].
      eapply sim_bind; [eapply (ev_ok K fe c _ _ []); eauto|]. intros [x s1] t1 I1. cbn [fst snd] in *.
      eapply sim_jz; eauto. intros [] t2 I2.
      * eapply IHst; eauto.
      * apply sim_ok. exact I2.
  - (* while *)
    destruct L as (-> & m1 & m2 & m3 & q & L1 & L2 & L3 & L4). apply Forall_app in R. destruct R as [R1 R2].
    eapply sim_mono. { eapply while_ok with (cont := aa); eauto.
      - intros fe1 s1 t1 [I1|I1]. + eapply sim_jmp'; eauto. intros t2 I2. apply sim_ok. exact I2.
        + apply sim_ok. exact I1. }
    intros [[sg fe1] s1] t1 I1. destruct sg; auto; destruct I1 as (x & [] & _).
  - (* for *)
    destruct L as (-> & m0 & m1 & m2 & m3 & m4 & q1 & q2 & q3 & L1 & L2 & L3 & L4 & L5 & L6).
    apply Forall_app in R. destruct R as [R1 R]. apply Forall_app in R. destruct R as [R2 R].
    apply Forall_app in R. destruct R as [R3 R4].
    eapply sim_bind; [eapply IHst1; eauto|]. intros [[sg fe1] s1] t1 I1. cbn [spost] in I1.
    destruct sg; try exact I; [|apply sim_ok; exact I1].
    eapply sim_mono. { eapply while_ok with (cont := m3); eauto.
      intros fe2 s2 t2 I2. assert (I2' : inst K m3 [] fe2 s2 t2) by (destruct I2; auto). clear I2.
      match goal with |- sim _ _ _ _ ?r _ => replace r with (obind r (fun y => Ok y)) by (destruct r; reflexivity) end.
      eapply sim_bind; [eapply IHst2; eauto|]. intros [[sg fe3] s3] t3 I3. cbn [spost] in I3.
      destruct sg; [|apply sim_ok; exact I|apply sim_ok; exact I|apply sim_ok; exact I3].
      eapply sim_jmp'; eauto. intros t4 I4. apply sim_ok. exact I4. }
    intros [[sg fe2] s2] t2 I2. destruct sg; auto; destruct I2 as (x & [] & _).
  - (* return *)
    destruct infun; [|destruct e; exact I]. specialize (IFn eq_refl). destruct e as [e|].
    + destruct L as (-> & m & L1 & L2). eapply sim_bind; [eapply (ev_ok K fe e _ _ []); eauto|].
      intros [v s1] t1 I1. cbn [fst snd] in *. eapply (sim_return K _ _ v IReturnValue []); eauto.
    + destruct L as (-> & L1). eapply (sim_return K _ _ VNull IReturn []); eauto.
  - destruct L as (x & J1 & Jx & _). eapply sim_jmp'; eauto. intros t1 I1. apply sim_ok. cbn. eauto.
  - destruct L as (x & J1 & Jx & _). eapply sim_jmp'; eauto. intros t1 I1. apply sim_ok. cbn. eauto.
  - destruct L as [-> _]. apply sim_ok. exact IN.
Qed.
End Stmt.

Lemma rev_repeat' {A} (x : A) k : rev (repeat x k) = repeat x k.
Proof.
  induction k; cbn; auto. rewrite IHk. clear IHk. induction k; cbn; congruence.
Qed.

(** ** Functions *)
Lemma enter_fn_ok : forall n, enter_ok P M n (enter_fn P n).
Proof.
  induction n as [|n IH]; intros y i params locals ret args s t rest Iy By St R Sh d r.
  { right. left. split; reflexivity. }
  unfold r. cbn [enter_fn]. rewrite By. destruct (p_body P (sy_id y)) as [body|] eqn:Bd; [|left; reflexivity].
  destruct (Nat.eqb_spec (length args) (length params)) as [La|]; [|left; reflexivity].
  destruct (ln_fun _ _ _ LK _ _ _ _ _ _ Iy By Bd) as (I32 & L255 & Rf & pc & m1 & m2 & e & q & Fp & Lp & Lb & Lr).
  destruct (Nat.ltb_spec d (p_depth P)) as [Dd|Dd].
  2:{ right. right. exists pc. split; [auto|]. split; [auto|]. left. auto. }
  destruct (Nat.leb_spec (length (t_stk t) + length locals) (p_room P)) as [Rm|Rm]; [|left; reflexivity].
  right. right. exists pc. split; [auto|]. split; [auto|]. right. split; [auto|]. cbn [pred].
  set (K := mkK rest (mkFrame (t_pc t) (t_fp t) (length args) :: t_frames t) (length args) (length locals)).
  set (fe := mkEnv args (repeat VNull (length locals))).
  assert (Lst : length (t_stk t) = length args + length rest) by (rewrite St, app_length, rev_length; reflexivity).
  assert (Hh : length (t_stk t) + length locals = hgt K []). { unfold hgt. cbn. lia. }
  change (S d) with (dep K).
  assert (ST : exists u, star M (dep K) (entered t (length args) pc) u /\ inst K m1 [] fe s u).
  { destruct Sh as (S1 & S2 & S3 & S4). destruct locals as [|l0 locals].
    - cbn in Lp. subst m1. exists (entered t (length args) pc). split; [constructor|].
      split; [split; reflexivity|]. split; [lia|]. exists (t_ret t), (t_nobj t), (t_max t).
      unfold entered, conf. cbn. rewrite S1, S2, S3, S4, Lst, St. reflexivity.
    - cbn [Nat.ltb Nat.leb length] in Lp. pose proof (decode_range _ _ _ _ Lp).
      exists (conf K m1 [] fe s (t_ret t) (t_nobj t) (t_max t)). split.
      + apply star_one; [cbn; unfold dep; lia|]. eapply cyc_instr; [cbn; lia|exact Lp|]. exists 0.
        cbn [norm VM.exec with_pc]. cbv zeta. rewrite Nat2Z.id. cbn [t_stk with_pc entered]. rewrite (room_eq P M Fn LK).
        rewrite (proj2 (Nat.leb_le _ _)) by (cbn [length] in Rm; lia).
        unfold conf, with_stk. cbn [t_pc t_fp t_frames t_ret t_globs t_heap t_next t_nobj t_max t_host with_pc entered].
        cbn [e_locals e_args fe app k_below K]. rewrite rev_repeat', S1, S2, S3, S4, Lst, St. reflexivity.
      + split; [split; [reflexivity|apply repeat_length]|]. split; [lia|]. eauto. }
  destruct ST as (u & SU & IU). eapply sim_star; [exact SU|]. rewrite Hh.
  assert (IFn : true = true -> exists f fr, k_frames K = f :: fr /\ f_nargs f = k_nargs K).
  { intros _. eexists _, _. split; reflexivity. }
  eapply sim_bind.
  { eapply (exec_ok n (enter_fn P n) IH body K anywhere m1 m2 q true fe s u); auto. cbn [k_nargs K]. rewrite La. exact Rf. }
  intros [[sg fe1] s1] t1 I1. cbn [spost] in I1.
  assert (BK : forall v t', returned K v s1 t' -> back t rest v s1 t').
  { intros v t' (f & fr & Ef & B1 & B2 & B3 & B4 & B5 & B6). injection Ef as <- <-. cbn in *.
    unfold back. repeat (split; [assumption|]). assumption. }
  destruct sg; try exact I.
  - (* fell off the end *)
    pose proof (sim_return n K m2 e VNull IReturn [] fe1 s1 t1 I1 Lr ltac:(left; auto) (IFn eq_refl)
      (fun x t' => back t rest VNull (snd x) t') (fun t' X => BK _ _ X)) as X.
    destruct X as (t' & X1 & X2). exists t'. split; [exact X1|exact X2].
  - apply sim_ok. apply BK. exact I1.
Qed.

(** ** Programs *)
Theorem exec_top_ok n ss b p s t :
  lay_stmts (map (lay_stmt T C Fn anywhere) ss) 0 b p -> Forall (ref_ok T 0) (flat_map srefs ss) ->
  shared s t -> t_pc t = 0%Z -> t_fp t = 0 -> t_stk t = [] -> t_frames t = [] ->
  sim M n 0 t (exec_top P n ss s)
    (fun s' t' => shared s' t' /\ t_pc t' = b /\ t_stk t' = [] /\ t_frames t' = [] /\ t_fp t' = 0).
Proof.
  intros L R (S1 & S2 & S3 & S4) Pc Fp St Fr. unfold exec_top.
  set (K := mkK [] [] 0 0). change 0 with (dep K) at 1.
  assert (IN : inst K 0 [] (mkEnv [] []) s t).
  { split; [split; reflexivity|]. split; [cbn; lia|]. exists (t_ret t), (t_nobj t), (t_max t).
    destruct t. cbn in *. subst. reflexivity. }
  eapply sim_bind.
  { apply (seq_ok n (enter_fn P n) K anywhere false ss) with (a := 0%Z) (b := b) (p := p) (t := t); auto.
    - apply Forall_forall. intros st _. apply exec_ok. apply enter_fn_ok.
    - discriminate. }
  intros [[sg fe1] s1] t1 I1. cbn [spost] in I1. destruct sg; try exact I.
  apply sim_ok. destruct I1 as ([E1 E2] & _ & ret & nobj & mx & ->). destruct fe1 as [[|] [|]]; try discriminate.
  cbn. repeat split; reflexivity.
Qed.

(** The whole run, up to the final halt *)
Theorem run_ok n ss b b' p s t :
  lay_stmts (map (lay_stmt T C Fn anywhere) ss) 0 b p -> at_i C b IHalt b' ->
  Forall (ref_ok T 0) (flat_map srefs ss) ->
  shared s t -> t_pc t = 0%Z -> t_fp t = 0 -> t_stk t = [] -> t_frames t = [] ->
  match exec_top P n ss s with
  | Ok s' => exists t', runs M no_poll t (Ok t') /\ shared s' t' /\ t_pc t' = (-1)%Z /\ t_stk t' = [] /\ t_frames t' = []
  | Abort => runs M no_poll t Abort
  | UB => True
  | Fuel => run M no_poll n t = Fuel
  end.
Proof.
  intros L Hh R Sh Pc Fp St Fr.
  pose proof (exec_top_ok n ss b p s t L R Sh Pc Fp St Fr) as X.
  destruct (exec_top P n ss s) as [s'| | |]; cbn in X; auto.
  - destruct X as (t' & X & Sh' & Pb & St' & Fr' & Fp'). subst b.
    pose proof (decode_range _ _ _ _ Hh).
    set (t2 := with_pc t' (-1)).
    assert (X2 : star M 0 t t2).
    { eapply star_trans; [exact X|]. apply star_one; [lia|]. eapply cyc_instr; [lia|exact Hh|]. exists 0. reflexivity. }
    assert (E : loop M no_poll 1 None t2 = Ok t2) by reflexivity.
    destruct (star_lift M 0 None _ _ _ _ X2 I E ltac:(discriminate)) as (f & Ef).
    exists t2. split; [split; [discriminate|exists f; exact Ef]|]. split; [exact Sh'|]. auto.
  - destruct X as (t' & X & _ & (_ & f & Ef)).
    assert (E : loop M no_poll (S f) None t' = Abort). { rewrite loop_step. cbn [going]. rewrite Ef. reflexivity. }
    destruct (star_lift M 0 None _ _ _ _ X I E ltac:(discriminate)) as (f' & Ef').
    split; [discriminate|exists f'; exact Ef'].
  - exact (X None I).
Qed.
End SimS.
