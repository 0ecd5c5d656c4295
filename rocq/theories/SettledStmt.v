(** * The type checker always answers: statements *)
From Verif Require Import Base Token Lexer Values Strings Syntax Symbols Code Parser Resolve Compile Layout CompileProofs TableInv ParserInv ResolveInv Host HostInv TagTable TagParse TagResolve.
From Verif Require Import Grammar GrammarStmt Settled SettledParse Answer SettledResolve.
Local Open Scope nat_scope.

(** Every structure that is mentioned has been defined *)
Definition all_defined (t : tbl) : Prop := forall id y d fs, sym_at t id = Some y -> sy_body y = SyStruct d fs -> d = true.
Lemma all_defined_shape t t' : tidy t -> same_shape t t' -> all_defined t -> all_defined t'.
Proof.
  intros T Sh A id y' d fs Y B. apply sym_at_in in Y as (J & Y). destruct (in_shape _ _ _ Sh J) as (y & Jy & Er).
  destruct (erase_struct _ _ _ _ Er B) as (B' & _ & _). eapply A; [apply in_sym_at; [apply td_unique; exact T|exact Jy]|exact B'].
Qed.

(** ** What type checking does to the table *)
Definition sgood (s : stmt) : Prop := forall t ts t' D, resolve_stmt s t = COk ts t' -> inv t D None ->
  next t D None t' /\ forall r, In r (targets s) -> knows t' r.
Lemma list_good ss : Forall sgood ss -> forall t ts t' D, resolve_list ss t = COk ts t' -> inv t D None ->
  next t D None t' /\ forall r, In r (flat_map targets ss) -> knows t' r.
Proof.
  induction 1 as [|s ss Hs _ IH]; intros t ts t' D E I; cbn [resolve_list] in E.
  - rstep E. split; [apply next_refl; exact I|intros r []].
  - apply cbind_ok in E as (s' & t1 & E1 & E). destruct (Hs _ _ _ _ E1 I) as (N1 & K1).
    apply cbind_ok in E as (ts' & t2 & E2 & E). destruct (IH _ _ _ _ E2 (proj1 N1)) as (N2 & K2). rstep E.
    split; [eapply next_trans; eauto|]. intros r J. cbn in J. apply in_app_or in J as [J|J]; auto. eapply mono_knows; [apply N2|auto].
Qed.
Lemma stmt_good s : sgood s.
Proof.
  induction s using stmt_ind'; intros t s' t' D E I; cbn [resolve_stmt] in E.
  - apply cbind_ok in E as (e & t1 & E1 & E). destruct (resolve_inv _ _ _ _ E1) as (-> & _). destruct e; try discriminate. rstep E. split; [apply next_refl; exact I|intros r []].
  - cbn [targets]. destruct (tok_eqb o DECLARE) eqn:Q.
    + destruct l; try discriminate. destruct r0 as [v|]; try discriminate.
      apply cbind_ok in E as (e & t1 & E1 & E). destruct (resolve_live t D I _ _ _ E1) as (-> & L). rstep E.
      apply cbind_ok in E as (u & t2 & E2 & E). apply if_fail_ok in E2 as (_ & ->).
      apply cbind_ok in E as (u2 & t3 & E3 & E). rstep E. destruct (keeps_set_tag _ _ _ _ _ _ _ E3 L I) as (I' & M & F & Kn).
      split; [split; auto|]. intros r0 [<-|[]]. exact Kn.
    + assert (Tg : targets (SAsg n o l r) = []) by (cbn; rewrite Q; destruct l; auto; destruct r0; auto). cbn in Tg. rewrite Q in Tg. rewrite Tg.
      assert (t' = t) as ->; [|split; [apply next_refl; exact I|intros ? []]].
      destruct (is_assign o).
      * apply cbind_ok in E as (e & t1 & E1 & E). destruct (resolve_inv _ _ _ _ E1) as (-> & I1).
        apply cbind_ok in E as (e2 & t2 & E2 & E). destruct (resolve_inv _ _ _ _ E2) as (-> & I2). repeat rstep E. reflexivity.
      * apply cbind_ok in E as (e & t1 & E1 & E). destruct (resolve_inv _ _ _ _ E1) as (-> & I1). rstep E. reflexivity.
  - apply cbind_ok in E as (ts & t1 & E1 & E). rstep E. exact (list_good _ H _ _ _ _ E1 I).
  - rstep E. apply cbind_ok in E as (u & t1 & E1 & E). injection E1 as _ <-.
    apply cbind_ok in E as (b & t2 & E2 & E). destruct (func_same t (Some f) D None I) as (I1 & M1). destruct (IHs _ _ _ _ E2 I1) as ((I2 & M2 & F2) & K).
    apply cbind_ok in E as (u3 & t3 & E3 & E). injection E3 as _ <-. rstep E. destruct (func_same t2 (tb_func t) D None I2) as (I3 & M3).
    split; [split; [exact I3|split; [eapply mono_trans; [exact M1|eapply mono_trans; eauto]|reflexivity]]|]. intros r J. eapply mono_knows; [exact M3|auto].
  - apply cbind_ok in E as (e & t1 & E1 & E). destruct (resolve_inv _ _ _ _ E1) as (-> & I1).
    apply cbind_ok in E as (u & t2 & E2 & E). apply check_bool_same in E2. subst t2.
    apply cbind_ok in E as (a' & t3 & E3 & E). destruct (IHs _ _ _ _ E3 I) as (N3 & K3).
    apply cbind_ok in E as (b' & t4 & E4 & E). rstep E. destruct b as [b0|]; cbn [targets].
    + apply cbind_ok in E4 as (x & t5 & E5 & E4). rstep E4. destruct (H _ eq_refl _ _ _ _ E5 (proj1 N3)) as (N5 & K5).
      split; [eapply next_trans; eauto|]. intros r J. apply in_app_or in J as [J|J]; auto. eapply mono_knows; [apply N5|auto].
    + rstep E4. auto.
  - apply cbind_ok in E as (e & t1 & E1 & E). destruct (resolve_inv _ _ _ _ E1) as (-> & I1).
    apply cbind_ok in E as (u & t2 & E2 & E). apply check_bool_same in E2. subst t2.
    apply cbind_ok in E as (a' & t3 & E3 & E). rstep E. exact (IHs _ _ _ _ E3 I).
  - apply cbind_ok in E as (i' & t0 & E0 & E). destruct (IHs1 _ _ _ _ E0 I) as (N0 & K0).
    apply cbind_ok in E as (e & t1 & E1 & E). destruct (resolve_inv _ _ _ _ E1) as (-> & I1).
    apply cbind_ok in E as (u & t2 & E2 & E). apply check_bool_same in E2. subst t2.
    apply cbind_ok in E as (a' & t3 & E3 & E). destruct (IHs2 _ _ _ _ E3 (proj1 N0)) as (N3 & K3).
    apply cbind_ok in E as (b' & t4 & E4 & E). destruct (IHs3 _ _ _ _ E4 (proj1 N3)) as (N4 & K4). rstep E. cbn [targets].
    split; [eapply next_trans; [exact N0|eapply next_trans; eauto]|]. intros r J. apply in_app_or in J as [J|J]; [|apply in_app_or in J as [J|J]]; auto.
    + eapply mono_knows; [apply N4|]. eapply mono_knows; [apply N3|auto].
    + eapply mono_knows; [apply N4|auto].
  - apply cbind_ok in E as (g & t1 & E1 & E).
    assert (t1 = t) as ->.
    { unfold ret_tag in E1. destruct (tb_func t); try discriminate.
      destruct (sym_at t _) as [[? ? [| |? ? ? []| | | | | ]]|]; try discriminate. injection E1 as _ <-. auto. }
    assert (t' = t) as ->; [|split; [apply next_refl; exact I|intros ? []]]. destruct e as [e|].
    + apply cbind_ok in E as (e' & t2 & E2 & E). destruct (resolve_inv _ _ _ _ E2) as (-> & I1). repeat rstep E. reflexivity.
    + rstep E. destruct (same_kind x KVoid); rstep E. reflexivity.
  - rstep E. split; [apply next_refl; exact I|intros ? []].
  - rstep E. split; [apply next_refl; exact I|intros ? []].
  - rstep E. split; [apply next_refl; exact I|intros ? []].
Qed.
Theorem all_good ss t ts t' D : resolve_all ss t = COk ts t' -> inv t D None ->
  next t D None t' /\ forall r, In r (flat_map targets ss) -> knows t' r.
Proof. rewrite resolve_all_list. apply list_good. apply Forall_forall. intros s _. apply stmt_good. Qed.

(** ** Totality *)
Definition ctx (F : tbl) (D : list vref) (fn : bool) (t : tbl) : Prop :=
  (exists Dall, inv t Dall None) /\ mono F t /\ all_defined t /\ (forall r, In r D -> knows t r) /\ (fn = true -> exists f, tb_func t = Some f /\ is_func t f).
Lemma ctx_next F D fn t s ts t' : ctx F D fn t -> resolve_stmt s t = COk ts t' -> ctx F (D ++ targets s) fn t'.
Proof.
  intros ((Da & I) & M & A & K & Fn) E. destruct (stmt_good _ _ _ _ _ E I) as ((I' & M' & F') & K'). split; [eauto|]. split; [eapply mono_trans; eauto|].
  split; [|split].
  - destruct (stmt_inv _ _ _ _ E) as (Sh & _). eapply all_defined_shape; [apply I|apply Sh; apply td_unique, I|exact A].
  - intros r J. apply in_app_or in J as [J|J]; auto. eapply mono_knows; eauto.
  - intros Q. destruct (Fn Q) as (f & Ff & Is). exists f. split; [congruence|eapply mono_func; eauto].
Qed.
Lemma expr_ans F D fn t e : ctx F D fn t -> ok_e F D e -> (exists te, resolve e t = COk te t /\ live t (tag_of te)) \/ exists t', resolve e t = CFail t'.
Proof.
  intros ((Da & I) & M & A & K & _) (R & O). apply (sub_total t Da I). apply (resolve_total t Da I A); [|eapply ok_t_more; eauto].
  revert R. apply Forall_impl. intros r [R|R]; [eapply mono_knows; eauto|auto].
Qed.
Lemma call_ans F D fn t f args : ctx F D fn t -> ok_es F D args -> (exists te, resolve (ECall f args) t = COk te t /\ live t (tag_of te)) \/ exists t', resolve (ECall f args) t = CFail t'.
Proof. intros C (R & O). eapply expr_ans; [exact C|]. split; [exact R|exact O]. Qed.
Lemma bool_ans t D e : inv t D None -> live t (tag_of e) -> check_bool e t = COk tt t \/ check_bool e t = CFail t.
Proof. intros I L. unfold check_bool. destruct (kindm_total _ _ L) as (k & E). rewrite (cb_ok _ _ _ _ _ E). destruct (same_kind k KBoolT); auto. Qed.
Lemma set_total t v g : is_var t v -> (forall id, v <> RConst id) -> exists t', set_var_tag v g t = COk tt t'.
Proof.
  unfold is_var, vtag, set_var_tag. intros V N. destruct v as [id|id|f k|f k]; cbn [ref_sym put_var] in *.
  - destruct (sym_at t id) as [[i n []]|]; cbn in V; try congruence. eauto.
  - exfalso. eapply N. reflexivity.
  - destruct (sym_at t f) as [[i n []]|]; cbn in V; try congruence. destruct (nth_error locals k); [eauto|exfalso; apply V; reflexivity].
  - destruct (sym_at t f) as [[i n []]|]; cbn in V; try congruence. destruct (nth_error args k); [eauto|exfalso; apply V; reflexivity].
Qed.

Definition stot (s : stmt) : Prop := forall F D fn t, ok_s F D fn s -> no_self s -> ctx F D fn t -> answers (resolve_stmt s t).
Lemma list_tot ss : Forall stot ss -> forall F D fn t, ok_ss F fn D ss -> Forall no_self ss -> ctx F D fn t -> answers (resolve_list ss t).
Proof.
  induction 1 as [|s ss Hs _ IH]; intros F D fn t O N C; cbn [resolve_list]; [apply ans_ok|]. destruct O as (O1 & O2). inversion N as [|? ? N1 N2]; subst.
  destruct (Hs _ _ _ _ O1 N1 C) as [(s' & t1 & E)|(t1 & E)]; [rewrite (cb_ok _ _ _ _ _ E)|rewrite (cb_fail _ _ _ _ E); apply ans_fail].
  destruct (IH _ _ _ _ O2 N2 (ctx_next _ _ _ _ _ _ _ C E)) as [(s2 & t2 & E2)|(t2 & E2)]; [rewrite (cb_ok _ _ _ _ _ E2); apply ans_ok|rewrite (cb_fail _ _ _ _ E2); apply ans_fail].
Qed.
Ltac sube H te E L := destruct H as [(te & E & L)|(? & E)]; [rewrite (cb_ok _ _ _ _ _ E)|rewrite (cb_fail _ _ _ _ E); apply ans_fail].
Ltac subs H te t1 E := destruct H as [(te & t1 & E)|(? & E)]; [rewrite (cb_ok _ _ _ _ _ E)|rewrite (cb_fail _ _ _ _ E); apply ans_fail].
Ltac subc H := let E := fresh "C" in destruct H as [E|E]; [rewrite (cb_ok _ _ _ _ _ E)|rewrite (cb_fail _ _ _ _ E); apply ans_fail].
Lemma no_self_block n ss : no_self (SBlock n ss) -> Forall no_self ss.
Proof. cbn. induction ss as [|s ss IH]; intros A; constructor; [apply A|apply IH, A]. Qed.
Lemma call_is_call f args t e t' : resolve (ECall f args) t = COk e t' -> exists f' es g, e = TCall f' es g.
Proof.
  cbn [resolve]. intros E. rstep E. destruct (reference_function t f) as [y|]; [|discriminate]. apply cbind_ok in E as ([[ps va] ret] & tx & Sg & E).
  apply cbind_ok in E as (es & t1 & _ & E). repeat rstep E. eauto.
Qed.
Lemma stmt_tot s : stot s.
Proof.
  induction s using stmt_ind'; intros F D fn t O N C; pose proof C as ((Da & I) & M & A & K & Fn); cbn [resolve_stmt].
  - cbn [ok_s] in O. sube (call_ans _ _ _ _ f a C O) te E L. destruct (call_is_call _ _ _ _ _ E) as (f' & es & g & ->). apply ans_ok.
  - cbn [ok_s] in O. destruct (tok_eqb o DECLARE) eqn:Q.
    + destruct l; try contradiction. destruct r0 as [v|]; try contradiction. destruct O as ((R & O) & V & Nc). cbn in N. specialize (N (proj1 (tok_eqb_eq _ _) Q)). rewrite mentioned_urefs in N.
      assert (O' : ok_e F D r).
      { split; auto. rewrite Forall_forall in *. intros x J. destruct (R x J) as [X|X]; [left; exact X|]. apply in_app_or in X as [X|[<-|[]]]; [right; exact X|contradiction]. }
      sube (expr_ans _ _ _ _ _ C O') te E L. destruct (kindm_total _ _ L) as (k & Ek). rewrite (cb_ok _ _ _ _ _ Ek).
      destruct (same_kind k KVoid); [rewrite (cb_fail cfail _ t t eq_refl); apply ans_fail|rewrite (cb_ok (cret tt) _ t tt t eq_refl)].
      destruct (set_total t v (tag_of te) (mono_var _ _ _ M V) Nc) as (t1 & E1). rewrite (cb_ok _ _ _ _ _ E1). apply ans_ok.
    + destruct O as (O1 & O2). destruct (is_assign o).
      * sube (expr_ans _ _ _ _ _ C O1) te E L. sube (expr_ans _ _ _ _ _ C O2) te2 E2 L2. subc (check_total t Da I _ _ L2 L). apply ans_ok.
      * sube (expr_ans _ _ _ _ _ C O2) te E L. apply ans_ok.
  - subs (list_tot _ H _ _ _ _ O (no_self_block _ _ N) C) te t1 E. apply ans_ok.
  - destruct O as (Is & O). rewrite (cb_ok cget _ t t t eq_refl). rewrite (cb_ok _ _ t tt (set_func t (Some f)) eq_refl). destruct (func_same t (Some f) Da None I) as (I1 & M1).
    assert (C1 : ctx F D true (set_func t (Some f))).
    { split; [eauto|]. split; [eapply mono_trans; eauto|]. split; [exact A|]. split; [intros r J; eapply mono_knows; eauto|]. intros _. exists f. split; [reflexivity|].
      eapply mono_func; [|exact Is]. eapply mono_trans; eauto. }
    subs (IHs _ _ _ _ O N C1) te t1 E. rewrite (cb_ok _ _ t1 tt (set_func t1 (tb_func t)) eq_refl). apply ans_ok.
  - destruct O as (O1 & O2 & O3). destruct N as (N1 & N2). sube (expr_ans _ _ _ _ _ C O1) te E L. subc (bool_ans _ _ _ I L). subs (IHs _ _ _ _ O2 N1 C) ta t1 E1.
    destruct b as [b0|]; [|rewrite (cb_ok (cret None) _ t1 None t1 eq_refl); apply ans_ok].
    destruct (H _ eq_refl _ _ _ _ O3 N2 (ctx_next _ _ _ _ _ _ _ C E1)) as [(tb & t2 & E2)|(t2 & E2)].
    + rewrite (cb_ok _ _ t1 (Some tb) t2); [apply ans_ok|]. rewrite (cb_ok _ _ _ _ _ E2). reflexivity.
    + rewrite (cb_fail _ _ t1 t2); [apply ans_fail|]. apply cb_fail. exact E2.
  - destruct O as (O1 & O2). sube (expr_ans _ _ _ _ _ C O1) te E L. subc (bool_ans _ _ _ I L). subs (IHs _ _ _ _ O2 N C) ta t1 E1. apply ans_ok.
  - destruct O as (O1 & O2 & O3 & O4). destruct N as (N1 & N2 & N3). subs (IHs1 _ _ _ _ O1 N1 C) ti t0 E0. pose proof (ctx_next _ _ _ _ _ _ _ C E0) as C0. pose proof C0 as ((Db & I0) & _).
    sube (expr_ans _ _ _ _ _ C0 O2) te E L. subc (bool_ans _ _ _ I0 L). subs (IHs2 _ _ _ _ O3 N2 C0) ta t1 E1. pose proof (ctx_next _ _ _ _ _ _ _ C0 E1) as C2.
    rewrite <- app_assoc in C2. subs (IHs3 _ _ _ _ O4 N3 C2) tb t2 E2. apply ans_ok.
  - destruct O as (Q & O). destruct (Fn Q) as (f & Ef & (y & i & ar & lo & re & Y & B)). pose proof (proj2 I _ _ Y) as X. rewrite B in X. cbn in X. destruct X as (_ & _ & X).
    destruct re as [g|]; [|discriminate]. assert (Rt : ret_tag t = COk g t) by (unfold ret_tag; rewrite Ef, Y; destruct y as [yi yn yb]; cbn in B; subst yb; reflexivity).
    rewrite (cb_ok _ _ _ _ _ Rt). destruct e as [e|].
    + sube (expr_ans _ _ _ _ _ C O) te E L. subc (check_total t Da I _ _ L X). apply ans_ok.
    + destruct (kindm_total _ _ X) as (k & Ek). rewrite (cb_ok _ _ _ _ _ Ek). destruct (same_kind k KVoid); [apply ans_ok|apply ans_fail].
  - apply ans_ok.
  - apply ans_ok.
  - apply ans_ok.
Qed.
Theorem all_tot ss F D fn t : ok_ss F fn D ss -> Forall no_self ss -> ctx F D fn t -> answers (resolve_all ss t).
Proof. rewrite resolve_all_list. apply list_tot. apply Forall_forall. intros s _. apply stmt_tot. Qed.
