(** * Every state a host can reach has a table in which every type is a type *)
From Verif Require Import Base Token Lexer Values Strings Code CodeProofs FileLine Syntax Symbols Parser Resolve Compile Layout LayoutProofs
  CompileProofs Host HostInv TableInv ParserInv ResolveInv LayTable Whole TypeSpec TypeCode TagTable TagParse TagResolve TagWhole.
From Verif Require Import Grammar GrammarStmt BindSpec BindProofs Settled SettledParse Answer SettledResolve SettledStmt Props_Stmt.
Local Open Scope nat_scope.
Local Open Scope cm_scope.

Lemma shape_kle t t' : same_shape t t' -> kle t t'.
Proof.
  intros Sh g k. destruct g; cbn; try (intros [= <-]; eexists; split; [reflexivity|left; reflexivity]).
  pose proof (shape_sym_at _ _ id Sh) as X. destruct (sym_at t id) as [[i n b]|] eqn:Y; try discriminate. destruct (sym_at t' id) as [[i' n' b']|]; try discriminate.
  unfold erase in X. cbn in X. injection X as -> -> E. intros Q. exists k. split; [|left; reflexivity].
  destruct b; try discriminate; destruct b'; try discriminate; cbn in *; congruence.
Qed.
Lemma foreign_kle t id n fs : sym_at t id = Some (mkSym id n (SyStruct false fs)) -> kle t (put_body t id SyForeignTag).
Proof.
  intros Y g k. destruct g; cbn [kind_of]; try (intros [= <-]; eexists; split; [reflexivity|left; reflexivity]).
  rewrite (sym_at_put _ _ _ _ _ Y). destruct (Nat.eqb_spec id0 id) as [->|].
  - rewrite Y. cbn. intros [= <-]. eexists. split; [reflexivity|right; auto].
  - intros Q. exists k. split; [exact Q|left; reflexivity].
Qed.
Lemma map_nth {A B} (f : A -> B) l l' i v' : map f l = map f l' -> nth_error l' i = Some v' -> exists v, nth_error l i = Some v.
Proof.
  intros E V. destruct (nth_error l i) eqn:X; eauto. apply nth_error_None in X. assert (L : length l = length l') by (rewrite <- (map_length f l), E, map_length; reflexivity).
  assert (nth_error l' i <> None) as Y by congruence. apply nth_error_Some in Y. lia.
Qed.
Lemma settled_shape t t' D o : same_shape t t' -> vsame t t' -> inv t D o -> inv t' D o.
Proof.
  intros Sh Vs (T & S). split; [eapply shape_tidy; eauto|]. pose proof (shape_kle _ _ Sh) as K.
  intros id y' Y'. pose proof (shape_sym_at _ _ id Sh) as X. rewrite Y' in X. destruct (sym_at t id) as [y|] eqn:Y; try discriminate.
  specialize (S _ _ Y). cbn in X. destruct y as [i n b], y' as [i' n' b']. unfold erase in X. cbn in X. injection X as -> -> E. cbn [sy_body] in *.
  apply (body_le t t' D D o o id b K (incl_refl _) (fun e => e)) in S.
  assert (Vt : forall r x, ref_sym r = id -> vt b r = Some x -> vt b' r = Some x).
  { intros r x Rs V. specialize (Vs r x). unfold vtag in Vs. rewrite Rs, Y, Y' in Vs. auto. }
  destruct b; destruct b'; try discriminate; try exact S; try (injection E; intros; subst; exact S).
  - specialize (Vt (RGlobal id) t0 eq_refl eq_refl). cbn in Vt. injection Vt as ->. exact S.
  - injection E as -> Ea El ->. cbn [body_ok] in *. destruct S as (A & B & C). split; [|split; [|exact C]].
    + intros k v V. destruct (map_nth _ _ _ _ _ Ea V) as (w & W). specialize (Vt (RArg id k) (lv_tag w) eq_refl). cbn in Vt. rewrite V, W in Vt. specialize (Vt eq_refl). cbn in Vt.
      injection Vt as ->. eauto.
    + intros k v V. destruct (map_nth _ _ _ _ _ El V) as (w & W). specialize (Vt (RLocal id k) (lv_tag w) eq_refl). cbn in Vt. rewrite V, W in Vt. specialize (Vt eq_refl). cbn in Vt.
      injection Vt as ->. eauto.
Qed.

(** ** Host calls *)
Lemma register_settled name t t' D o : register_type name t = COk tt t' -> inv t D o -> inv t' D o.
Proof.
  intros E (T & S). destruct (tok_register_type _ _ _ _ E T) as (T' & _). split; auto.
  unfold register_type in E. destruct (prim_tag name); [injection E as <-; exact S|]. destruct (find _ _) as [y|] eqn:F.
  - destruct y as [id n b]. destruct b; try (injection E as <-; exact S). destruct defined; injection E as <-; [exact S|].
    apply find_some in F as (J & _). pose proof (in_sym_at _ _ (td_unique _ T) J) as Y. cbn [sy_id] in Y. pose proof (foreign_kle _ _ _ _ Y) as K. intros i z Z. rewrite (sym_at_put _ _ _ _ _ Y) in Z.
    destruct (Nat.eqb_spec i id); [injection Z as <-; exact Logic.I|]. apply (body_le _ _ D D o o i _ K (incl_refl _) (fun e => e)). auto.
  - injection E as <-. match goal with |- settled ?t1 _ _ => set (t' := t1) in * end. edestruct (new_move t t' name) with (D' := D) (o' := o) (b := SyForeignTag) as (X & _); [split; [exact T|exact S]|reflexivity|reflexivity|discriminate|apply incl_refl|auto| |exact (proj2 X)].
    intros _. exact Logic.I.
Qed.
Lemma sig_args_next T a gs va T' : spells_sig_args T a gs va T' -> forall D o, inv T D o -> next T D o T' /\ Forall (live T') gs.
Proof.
  induction 1 as [T|T c a gs va T' _ _ IH|T d a gs va T' _ _ IH|T a g T1 b gs va T' St _ IH]; intros D o I.
  - split; [apply next_refl; exact I|constructor].
  - auto.
  - auto.
  - destruct (type_next _ _ _ _ _ _ St I) as (N1 & L). destruct (IH _ _ (proj1 N1)) as (N2 & Ls). split; [eapply next_trans; eauto|].
    constructor; auto. eapply mono_live; [apply N2|exact L].
Qed.
Lemma live_any T : live T GAny. Proof. eexists; reflexivity. Qed.
Lemma signature_next T a k name gs va ret T' : signature T a k name gs va ret T' -> forall D o, inv T D o -> inv T' D o /\ Forall (live T') gs /\ live T' ret.
Proof.
  intros H D o0 I. destruct H.
  - split; auto. split; [constructor|apply live_any].
  - destruct (sig_args_next _ _ _ _ _ H3 _ _ I) as (N & L). split; [apply N|]. split; auto. apply live_any.
  - destruct (sig_args_next _ _ _ _ _ H3 _ _ I) as (N & L). destruct (type_next _ _ _ _ _ _ H5 (proj1 N)) as (N2 & L2). split; [apply N2|]. split; auto.
    revert L. apply Forall_impl. intros ?. apply mono_live, N2.
Qed.
Lemma host_settled n op s s' D : host n op s = COk tt s' -> inv (k_tbl s) D None -> inv (k_tbl s') D None.
Proof.
  intros E I. unfold host, kon_tbl in E. destruct op as [name|sig callee|name c|name].
  - destruct (register_type name (k_tbl s)) as [[] t| | | | |] eqn:Eo; try discriminate. injection E as <-. eapply register_settled; eauto.
  - destruct (bind_host n sig callee (k_tbl s)) as [[] t| | | | |] eqn:Eo; try discriminate. injection E as <-.
    destruct (host_sound _ _ _ _ _ Eo) as (a & y & name & gs & va & ret & T1 & _ & Sg & Bf). destruct (signature_next _ _ _ _ _ _ _ _ Sg _ _ I) as (I1 & Lg & Lr).
    apply (keeps_foreign _ _ _ _ _ _ _ _ _ _ Bf Lg Lr I1).
  - destruct (bind_const name c (k_tbl s)) as [[] t| | | | |] eqn:Eo; try discriminate. injection E as <-. destruct c; cbn [bind_const] in Eo.
    4: { apply cbind_ok in Eo as (i & t1 & E1 & Eo). pose proof (keeps_intern _ _ _ _ _ _ E1 I) as (I1 & _). exact (proj1 (keeps_const _ _ _ _ _ _ _ Eo I1)). }
    all: exact (proj1 (keeps_const _ _ _ _ _ _ _ Eo I)).
  - destruct (bind_macro name (k_tbl s)) as [[] t| | | | |] eqn:Eo; try discriminate. injection E as <-. exact (proj1 (keeps_macro _ _ _ _ _ _ Eo I)).
Qed.

(** ** Compiling *)
Lemma compile_state_settled pend file ss s ts s' D :
  loaded (pend ++ map fst (flat_map ubodies ss)) s ->
  Forall (fun p => Forall (in_scope (Some (fst p))) (usrefs (snd p))) (flat_map ubodies ss) ->
  Forall (in_scope None) (flat_map usrefs ss) ->
  compile_state file ss s = COk ts s' -> inv (k_tbl s) (D ++ flat_map targets ss) None -> inv (k_tbl s') D None.
Proof.
  intros L Ub Ur E I. destruct (compile_state_inv _ _ _ _ _ _ L Ub Ur E) as (L' & _ & _ & Hi & (t1 & Er & Sh) & La).
  destruct (all_good _ _ _ _ _ Er I) as ((I1 & M & _) & K).
  assert (X : tstep t1 (k_tbl s') []).
  { unfold compile_state in E.
    apply cbind_ok in E as (h & s0 & E0 & E). injection E0 as <- <-.
    apply cbind_ok in E as (u1 & s1 & E1 & E). injection E1 as _ <-.
    apply cbind_ok in E as (ts0 & s2 & E2 & E). unfold kon_tbl in E2. cbn [k_tbl set_code] in E2. rewrite Er in E2. injection E2 as <- <-.
    apply cbind_ok in E as (u3 & s3 & E3 & E). injection E3 as _ <-.
    apply cbind_ok in E as (u4 & s4 & E4 & E). injection E4 as _ <-.
    apply cbind_ok in E as (u5 & s5 & E5 & E).
    cbn [k_tbl k_code k_fpcs k_ftab k_lines k_hist set_tbl set_code set_fpcs set_ftab] in E5.
    destruct (build_foreign _ _) as [ftab|] eqn:Ef; try discriminate. injection E5 as _ <-.
    apply cbind_ok in E as (u6 & s6 & E6 & E).
    apply cbind_ok in E as (u7 & s7 & E7 & E). apply emit_i_ok in E7. subst s7.
    apply cbind_ok in E as (u8 & s8 & E8 & E). injection E8 as _ <-. apply cret_ok in E as (_ & ->).
    exact (proj2 (kq_all _ _ _ _ _ E6 (proj1 I1))). }
  apply (settled_shape t1); [exact Sh|apply X|]. split; [apply I1|]. eapply settled_drop; [|apply I1].
  intros r J. apply in_app_or in J as [J|J]; auto.
Qed.
Definition settle_macros (mods : text -> macro) : Prop := forall m args as_ x b x', mods m args as_ x = COk b x' ->
  forall pend D, loaded pend x -> inv (k_tbl x) D None -> inv (k_tbl x') D None.
Lemma run_uses_settled mods ss : safe_macros mods -> settle_macros mods ->
  forall s u s', run_uses mods ss s = COk u s' -> forall pend D, loaded pend s -> inv (k_tbl s) D None -> inv (k_tbl s') D None.
Proof.
  intros Sm Hm. induction ss as [|st ss IH]; intros s u s' E pend D L T; cbn [run_uses] in E.
  - apply cret_ok in E as (_ & ->). auto.
  - destruct st; try exact (IH _ _ _ E _ _ L T).
    apply cbind_ok in E as (u1 & s1 & E1 & E).
    destruct (existsb _ _); try discriminate. destruct (128 <? length _); try discriminate.
    apply cbind_ok in E1 as (b & s2 & E2 & E1). destruct b; try discriminate. apply cret_ok in E1 as (_ & ->).
    pose proof (Hm _ _ _ _ _ _ E2 _ _ L T) as T2. destruct (Sm _ _ _ _ _ _ E2 _ L) as (L2 & _).
    exact (IH _ _ _ E _ _ L2 T2).
Qed.
Lemma compile_string_settled n mods file src ts s s' pend D : safe_macros mods -> settle_macros mods -> loaded pend s -> inv (k_tbl s) D None ->
  compile_string n mods file src s = COk ts s' -> inv (k_tbl s') D None.
Proof.
  intros Hm Ht L I E. unfold compile_string in E. destruct (compile_body n mods file src s) as [x s1| | | | |] eqn:B; try discriminate.
  injection E as <- <-. unfold compile_body in B.
  apply cbind_ok in B as (n1 & s2 & E1 & B). injection E1 as _ <-.
  apply cbind_ok in B as (ss & s3 & E2 & B).
  destruct (parse_program n (start_parse (k_tbl s) src)) as [a p| | | | |] eqn:P; try discriminate. injection E2 as <- <-.
  apply cbind_ok in B as (n2 & s4 & E3 & B). injection E3 as _ <-.
  apply cbind_ok in B as (u5 & s5 & E5 & B). apply cbind_ok in B as (u6 & s6 & E6 & B).
  assert (s6 = s5) as -> by (destruct (forallb _ _); [injection E6 as _ <-; auto|discriminate]).
  apply cbind_ok in B as (ts & s7 & E7 & B). apply cbind_ok in B as (u8 & s8 & E8 & B).
  assert (s8 = s7) as -> by (destruct (forallb _ _); [injection E8 as _ <-; auto|discriminate]).
  apply cret_ok in B as (-> & ->).
  destruct (program_inv _ _ _ _ _ (ld_func _ _ L) P) as (Gr & Sc).
  assert (Gp : exists a' x', tokens src a' x' /\ GrammarStmt.program (k_tbl s) a' x' a (ps_tbl p)) by (apply programs_by_grammar; eauto).
  destruct Gp as (a' & x' & _ & Gp). destruct (program_next _ _ _ _ _ Gp _ I) as (Nx & _).
  pose proof (loaded_tbl _ _ _ _ L Gr) as L3.
  pose proof (run_uses_settled _ _ Hm Ht _ _ _ E5 _ _ L3 (proj1 Nx)) as I5.
  assert (L5 : loaded (pend ++ map fst (flat_map ubodies a)) s5).
  { eapply run_uses_inv; [|exact E5|exact L3]. intros m args as_ y b y' Em pd Lp. apply (Hm _ _ _ _ _ _ Em _ Lp). }
  exact (compile_state_settled _ _ _ _ _ _ _ L5 (gr_bodies _ _ _ Gr) Sc E7 I5).
Qed.
Theorem steps_settled s s' : steps s s' -> forall pend D, loaded pend s -> inv (k_tbl s) D None -> inv (k_tbl s') D None.
Proof.
  induction 1 as [s|n o s s1 s2 E S IH|n mods file src ts s s1 s2 Hm IHm E S IH]; intros pend D L T; auto.
  - exact (IH _ _ (host_loaded _ _ _ _ _ E L) (host_settled _ _ _ _ _ E T)).
  - assert (Sm : safe_macros mods).
    { intros m args as_ x b x' Em pd Lp. split; [eapply steps_loaded; eauto|]. eapply steps_later; eauto. }
    assert (Tm : settle_macros mods) by (intros m args as_ x b x' Em pd D0 Lp Tp; exact (IHm _ _ _ _ _ _ Em _ _ Lp Tp)).
    pose proof (compile_string_settled _ _ _ _ _ _ _ _ _ Sm Tm L T E) as T1.
    assert (L1 : loaded pend s1). { eapply compile_string_inv; [|exact E|exact L]. intros. eapply steps_loaded; eauto. }
    exact (IH _ _ L1 T1).
Qed.
Lemma two_hosts_settled n o m o' s s' : cbind (host n o) (fun _ => host m o') s = COk tt s' -> inv (k_tbl s) [] None -> inv (k_tbl s') [] None.
Proof. intros E I. apply cbind_ok in E as ([] & s1 & E1 & E). eapply host_settled; [exact E|]. eapply host_settled; [exact E1|exact I]. Qed.
Lemma settled_init : inv init_tbl [] None.
Proof. split; [exact tidy_init|]. intros id y Y. discriminate Y. Qed.
Lemma create_settled s : create_state = COk tt s -> inv (k_tbl s) [] None.
Proof. unfold create_state. intros E. exact (two_hosts_settled _ _ _ _ _ _ E settled_init). Qed.
Theorem reachable_settled s : reachable s -> inv (k_tbl s) [] None.
Proof. intros (s0 & E & S). exact (steps_settled _ _ S _ _ (create_loaded _ E) (create_settled _ E)). Qed.
