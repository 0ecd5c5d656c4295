(** * Laid out code computes what Source.v says: expressions *)
From Verif Require Import Base Token Float64 Values Heap Code CodeSpec Syntax Symbols Compile Layout LayoutProofs
  VM VMBasics VMSpec VMInv VMFrame VMProofs Source Simulate SimExpr.
Local Open Scope nat_scope.

Section SimE.
Context {H : Type} (P : prog H) (M : machine H) (Fn : nat -> Z -> Prop) (LK : linked P M Fn).
Variable n : nat.
Variable enter : nat -> nat -> sym -> list value -> sst H -> outcome (value * sst H).
Hypothesis EN : enter_ok P M n enter.
Notation T := (p_tbl P).
Notation C := (m_code M).
Notation eok := (eok P M n enter).
Notation computes := (computes P M n).
Notation inst := (inst P).
Notation ev := (eval P enter).

Ltac refs R := repeat match type of R with Forall _ (_ ++ _) => apply Forall_app in R; let R' := fresh "R" in destruct R as [R' R] end.

Lemma in_reffun f x : reference_function T f = Some x -> In x (tb_syms T).
Proof. intros E. unfold reference_function in E. apply find_some in E. tauto. Qed.
Lemma in_sym_at id x : sym_at T id = Some x -> In x (tb_syms T).
Proof. intros E. unfold sym_at in E. apply find_some in E. tauto. Qed.

(** operands, then an operator *)
Lemma sim_lbin K fe o (bo : bop) inc d l r :
  (bo = BAdd /\ o = OAdd /\ inc = IAdd1 /\ d = is_one r) \/ (bo = BSub /\ o = OSub /\ inc = ISub1 /\ d = is_one r) \/
  (bo <> BAdd /\ bo <> BSub /\ binop_of bo = Some o /\ d = false) ->
  computes K fe (ev (dep K) fe l) (lay T C l) -> computes K fe (ev (dep K) fe r) (lay T C r) ->
  computes K fe (fun h s =>
    obind (ev (dep K) fe l h s) (fun p => let '(a, s1) := p in
      if step_of_float bo r a then UB else
      obind (ev (dep K) fe r (S h) s1) (fun p => let '(b, s2) := p in
      obind (operate bo a b s2) (fun v => Ok (v, s2))))) (lay_bin C o inc d (lay T C l) (lay T C r)).
Proof.
  intros O CL CR a b temps s t (m & L1 & L2) IN.
  eapply sim_bind; [eapply CL; eauto|]. intros [x s1] t1 I1. cbn [fst snd] in *.
  destruct (step_of_float bo r x) eqn:SF; [exact I|].
  assert (OP : forall x y (s : sst H), operate bo x y s = do_bin o x y).
  { intros. destruct O as [(-> & -> & _)|[(-> & -> & _)|(N1 & N2 & B & _)]]; auto.
    destruct bo; cbn in B; try discriminate B; injection B as <-; reflexivity. }
  destruct d.
  - assert (I1r : is_one r = true /\ ((bo = BAdd /\ o = OAdd /\ inc = IAdd1) \/ (bo = BSub /\ o = OSub /\ inc = ISub1))).
    { destruct O as [(-> & -> & -> & E)|[(-> & -> & -> & E)|(_ & _ & _ & E)]]; [auto|auto|discriminate]. }
    destruct I1r as [I1r O']. assert (r = TInt 1).
    { destruct r; try discriminate I1r. destruct z as [|p|p]; try discriminate I1r. destruct p; try discriminate I1r. reflexivity. }
    subst r. cbn [eval]. unfold keep. destruct (_ <? _); [|exact I]. cbn [obind]. rewrite OP.
    eapply (sim_one P M n K _ _ o (if match o with OAdd => true | _ => false end then 1 else -1)%Z); eauto.
    + destruct O' as [(-> & -> & ->)|(-> & -> & ->)]; [left|right]; eauto.
    + intros z ->. destruct O' as [(-> & _)|(-> & _)]; discriminate SF.
  - destruct L2 as (m' & L2 & L3). rewrite <- (hgt_cons K x temps).
    eapply sim_bind; [eapply CR; eauto|]. intros [y s2] t2 I2. cbn [fst snd] in *. rewrite OP.
    eapply sim_bin; eauto.
Qed.

Lemma sim_then K fe t a b temps s e : forall (R : Forall (ref_ok T (k_nargs K)) (erefs e)), eok e ->
  lay T C e a b -> inst K a temps fe s t ->
  sim M n (dep K) t (ev (dep K) fe e (hgt K temps) s) (fun x t' => inst K b (fst x :: temps) fe (snd x) t').
Proof. intros R E L I. exact (E K fe R a b temps s t L I). Qed.

Lemma sim_jump K fe t temps m x b (r : outcome (value * sst H)) :
  sim M n (dep K) t r (fun x t' => inst K m (fst x :: temps) fe (snd x) t') -> jmp C m x b ->
  sim M n (dep K) t r (fun y t' => inst K x (fst y :: temps) fe (snd y) t').
Proof.
  intros S J. replace r with (obind r (fun y => Ok y)) by (destruct r; reflexivity).
  eapply sim_bind; [exact S|]. intros [v s] t' I1. eapply sim_jmp'; eauto. intros t2 I2. apply sim_ok. exact I2.
Qed.

Lemma eval_ok e : eok e.
Proof.
  induction e using texpr_ind'; intros K fe R aa bb temps s0 th L IN; cbn [lay eval erefs] in *.
  - eapply sim_push; eauto.
  - eapply sim_push; eauto. intros. destruct b; reflexivity.
  - eapply sim_int; eauto.
  - eapply sim_int; eauto.
  - eapply sim_float; eauto.
  - eapply sim_str; eauto.
  - inversion R; subst. eapply sim_ref; eauto.
  - (* call *)
    destruct L as (m1 & m2 & L1 & L2 & L3).
    eapply sim_bind; [eapply eval_list_ok; [apply eoks_computes|exact L1|exact IN]; auto|].
    intros [vs s1] t1 (Lv & I1). cbn [fst snd] in *. rewrite map_length in Lv.
    destruct (reference_function T f) as [y|] eqn:Ry; [|exact I].
    replace (hgt K temps + length vs) with (hgt K (rev vs ++ temps)).
    2:{ unfold hgt. rewrite app_length, rev_length. lia. }
    eapply sim_bind.
    { eapply sim_call; [exact LK|exact EN|exact I1|exact L2| | |reflexivity].
      - rewrite Lv. reflexivity. - intros x [= <-]. eapply in_reffun; eauto. }
    intros [v s2] t2 I2. cbn [fst snd] in *. eapply sim_retval; eauto.
  - (* binary *)
    apply Forall_app in R. destruct R as [R1 R2].
    pose proof (IHe1 K fe R1) as C1. pose proof (IHe2 K fe R2) as C2.
    destruct o; cbn [binop_of] in L;
      try (match goal with |- context [step_of_float ?bo _ _] =>
             refine (sim_lbin K fe _ bo _ _ _ _ _ C1 C2 _ _ _ _ _ L IN) end;
           first [ left; auto; fail | right; left; auto; fail
                 | right; right; split; [discriminate|]; split; [discriminate|]; auto ]).
    + (* == *) destruct L as (m1 & m2 & L1 & L2 & L3).
      eapply sim_bind; [eapply C1; eauto|]. intros [x s1] t1 I1. cbn [fst snd step_of_float] in *.
      rewrite <- (hgt_cons K x temps).
      eapply sim_bind; [eapply C2; eauto|]. intros [y s2] t2 I2. cbn [fst snd operate] in *.
      pose proof (sim_equ _ M n _ _ _ _ _ _ _ _ _ I2 L3) as X.
      destruct (values_equal (s_heap s2) x y); exact X.
    + (* != *) destruct L as (m1 & m2 & m3 & L1 & L2 & L3 & L4).
      eapply sim_bind; [eapply C1; eauto|]. intros [x s1] t1 I1. cbn [fst snd step_of_float] in *.
      rewrite <- (hgt_cons K x temps).
      eapply sim_bind; [eapply C2; eauto|]. intros [y s2] t2 I2. cbn [fst snd operate] in *.
      pose proof (sim_equ _ M n _ _ _ _ _ _ _ _ _ I2 L3) as X.
      replace (obind (obind (values_equal (s_heap s2) x y) (fun r => Ok (VBool (negb r)))) (fun v => Ok (v, s2)))
        with (obind (obind (values_equal (s_heap s2) x y) (fun r => Ok (VBool r, s2)))
               (fun p => obind (is_true (fst p)) (fun b => Ok (VBool (negb b), snd p))))
        by (destruct (values_equal (s_heap s2) x y); reflexivity).
      eapply sim_bind; [exact X|]. intros [z s3] t3 I3. cbn [fst snd] in *. eapply sim_not; eauto.
    + (* && *) destruct L as (m1 & m2 & m3 & m4 & L1 & L2 & L3 & L4 & L5).
      eapply sim_bind; [eapply C1; eauto|]. intros [x s1] t1 I1. cbn [fst snd] in *.
      eapply sim_jz; eauto. intros [] t2 I2.
      * eapply sim_jump; [eapply C2; eauto|]. exact L4.
      * eapply sim_push; eauto.
    + (* || *) destruct L as (m1 & m2 & m3 & m4 & L1 & L2 & L3 & L4 & L5).
      eapply sim_bind; [eapply C1; eauto|]. intros [x s1] t1 I1. cbn [fst snd] in *.
      eapply sim_jz; eauto. intros [] t2 I2.
      * eapply sim_jump; [eapply sim_push; eauto|]. exact L4.
      * eapply C2; eauto.
  - (* unary *)
    pose proof (IHe K fe R) as C1. destruct o.
    + assert (X : forall m1 m2, lay T C e aa m1 -> at_i C m1 (IPushInt (-1)) m2 -> at_i C m2 (IBin OMul) bb ->
        sim M n (dep K) th
          (obind (ev (dep K) fe e (hgt K temps) s0) (fun p => let '(v, s1) := p in
             obind (keep P (S (hgt K temps)) VNull s1) (fun q => let '(_, _) := q in
             obind (negate v) (fun x => Ok (x, s1))))) (fun x t' => inst K bb (fst x :: temps) fe (snd x) t')).
      { intros m1 m2 L1 L2 L3. eapply sim_bind; [eapply C1; eauto|]. intros [x s1] t1 I1. cbn [fst snd] in *.
        replace (obind (keep P (S (hgt K temps)) VNull s1) (fun q => let '(_, _) := q in obind (negate x) (fun y => Ok (y, s1))))
          with (obind (keep P (S (hgt K temps)) (VInt (-1)) s1)
                  (fun q => obind (do_bin OMul x (fst q)) (fun y => Ok (y, snd q))))
          by (unfold keep; destruct (_ <? _); reflexivity).
        rewrite <- (hgt_cons K x temps).
        eapply sim_bind; [eapply sim_push; eauto|]. intros [y s2] t2 I2. cbn [fst snd] in *.
        eapply sim_bin; eauto. }
      destruct e; try (destruct L as (m1 & m2 & L1 & L2 & L3); exact (X _ _ L1 L2 L3)).
      eapply sim_push; eauto. intros. cbn [norm VM.exec]. rewrite wrap_wrap. reflexivity.
    + destruct L as (m & L1 & L2). eapply sim_bind; [eapply C1; eauto|]. intros [x s1] t1 I1. cbn [fst snd] in *.
      eapply sim_not; eauto.
  - eapply IHe; eauto.
  - (* constructor *)
    destruct L as (fs & m & Ef & L1 & L2). assert (Ef' : fields_of P t = Some fs)
      by (unfold fields_of, sfields in *; destruct (sym_at T t) as [[? ? []]|]; try discriminate; destruct defined; congruence).
    rewrite Ef'.
    pose proof (eoks_computes P M n enter K fe args H0 R) as F2.
    destruct (ordered_inits fs ns (map (ev (dep K) fe) args)) as [ms|] eqn:OI; [|exact I].
    assert (Z : exists ls, Forall2 (computes K fe) ms ls /\ lay_seq ls aa m /\ length ms = length fs).
    { unfold ordered_inits in OI. destruct ns as [|nm ns].
      - destruct (Nat.eqb_spec (length (map (ev (dep K) fe) args)) (length fs)) as [EL|]; [|discriminate].
        injection OI as <-. eauto.
      - destruct (inits_ok P M n K fe (nm :: ns) _ _ F2 fs ms aa m OI L1) as (ls & A1 & A2).
        exists ls. split; [auto|]. split; [auto|]. eapply inits_length; eauto. }
    destruct Z as (ls & F & LS & EL).
    eapply sim_bind; [eapply eval_list_ok; eauto|]. intros [vs s1] t1 (Lv & I1). cbn [fst snd] in *.
    eapply (sim_new P M Fn LK n K _ _ (length fs)); [exact I1|congruence|eapply (ln_fields _ _ _ LK); eauto|exact L2].
  - eapply IHe; eauto.
  - (* field *)
    destruct L as (m & k & Fk & L1 & L2).
    eapply sim_bind; [eapply IHe; eauto|]. intros [x s1] t1 I1. cbn [fst snd] in *.
    destruct (field_number P (tag_of e) f) as [j|] eqn:Fj; [|exact I].
    assert (k = Z.of_nat j).
    { unfold field_number, fields_of in Fj. unfold field_no in Fk. destruct (tag_of e); try discriminate.
      destruct (sym_at T id) as [[? ? []]|]; try discriminate. destruct (field_index fields f) as [[]|]; try discriminate.
      cbn in Fj. congruence. }
    subst k. eapply sim_get_field; eauto.
  - (* index *)
    apply Forall_app in R. destruct R as [R1 R2].
    destruct L as (m1 & m2 & m3 & L1 & L2 & L3 & L4).
    eapply sim_bind; [eapply IHe1; eauto|]. intros [x s1] t1 I1. cbn [fst snd] in *.
    rewrite <- (hgt_cons K x temps).
    eapply sim_bind; [eapply IHe2; eauto|]. intros [y s2] t2 I2. cbn [fst snd] in *.
    rewrite <- (hgt_cons K y (x :: temps)). unfold call_id.
    destruct (sym_at T g) as [f|] eqn:Sf; [|exact I].
    eapply sim_bind.
    { eapply (sim_call P M Fn LK n enter EN K _ _ _ _ [x; y] temps); [exact I2|exact L3|reflexivity| |reflexivity].
      intros z [= <-]. eapply in_sym_at; eauto. }
    intros [v s3] t3 I3. cbn [fst snd] in *. eapply sim_retval; eauto.
  - (* ternary *)
    apply Forall_app in R. destruct R as [R1 R2]. apply Forall_app in R2. destruct R2 as [R2 R3].
    destruct L as (m1 & m2 & m3 & m4 & L1 & L2 & L3 & L4 & L5).
    eapply sim_bind; [eapply IHe1; eauto|]. intros [x s1] t1 I1. cbn [fst snd] in *.
    eapply sim_jz; eauto. intros [] t2 I2.
    + eapply sim_jump; [eapply IHe2; eauto|]. exact L4.
    + eapply IHe3; eauto.
Qed.
End SimE.
