(** * C53: compiling a source with [use] statements always comes to an answer *)
From Verif Require Import Base Token Lexer LexerSpec Values Strings Code FileLine Syntax Symbols Parser Resolve Compile Layout LayoutProofs CompileProofs TableInv.
From Verif Require Import ParserInv ResolveInv ParserTotal Host HostInv LayTable Whole Grammar GrammarStmt Props_Compile Props_Parser Props_Stmt Props_Names Props_Typing.
From Verif Require Import Typing TypingProofs TypingExpr TypingStmt Accept AcceptCode AcceptStmt AcceptReady AcceptGrammar AcceptRoom AcceptWhole TagTable TagParse Props_Accept.
From Verif Require Import BindSpec BindProofs Settled SettledParse Answer SettledResolve SettledStmt SettledWhole Props_Answer.
From Verif Require Import StdBind LibrarySpec LibraryProofs LibDict Props_Bind Props_Library Props_Uses.
Local Open Scope nat_scope.

(** The structures a source makes with [new] *)
Fixpoint news (e : expr) : list nat :=
  match e with
  | ENew id _ args => id :: flat_map news args
  | ECall _ args => flat_map news args
  | EBin _ l r | EIndex l r => news l ++ news r
  | EUn _ e | EParen e | ECast e _ | EDot e _ => news e
  | ETern c a b => news c ++ news a ++ news b
  | _ => []
  end.
Fixpoint made (s : stmt) : list nat :=
  match s with
  | SCall _ _ args => flat_map news args
  | SAsg _ _ l r => news l ++ news r
  | SBlock _ ss => flat_map made ss
  | SProc _ _ b => made b
  | SIf _ c a b => news c ++ made a ++ match b with Some b' => made b' | None => [] end
  | SWhile _ c b => news c ++ made b
  | SFor _ i c st b => made i ++ news c ++ made st ++ made b
  | SReturn _ (Some e) => news e
  | _ => []
  end.

(** Every macro the source uses, run where it is run, answers (it succeeds or fails)
    and gets at most 128 arguments; *)
Definition macros_answer (mods : text -> macro) (s0 : kst) (src : text) : Prop :=
  forall a x pre n m args as_ post T s, tokens src a x -> GrammarStmt.program (k_tbl s0) a x (pre ++ SUse n m args as_ :: post) T ->
    uses mods pre (set_tbl s0 T) s -> (exists y, In y (tb_syms (k_tbl s)) /\ a_macro m y) ->
    length args <= 128 /\ exists s', (exists b, mods m args as_ s = COk b s') \/ mods m args as_ s = CFail s'.
(** what they bind mentions no structure that is defined nowhere, and they do not
    make a type of the host's out of a structure the source makes with [new] *)
Definition macros_sound (mods : text -> macro) (s0 : kst) (src : text) : Prop :=
  forall a x ss T s1, tokens src a x -> GrammarStmt.program (k_tbl s0) a x ss T -> uses mods ss (set_tbl s0 T) s1 ->
    (forall id name d fs, denotes (k_tbl s1) id name (SyStruct d fs) -> (exists nm b, denotes T id nm b) \/ d = true) /\
    (forall id name, In id (flat_map made ss) -> ~ denotes (k_tbl s1) id name SyForeignTag).

(** ** What a macro may do to the table *)
Definition upf (b b' : symbody) : Prop := up b b' \/ ((exists d fs, b = SyStruct d fs) /\ b' = SyForeignTag).
Definition later (t t' : tbl) : Prop :=
  kle t t' /\ forall id y, sym_at t id = Some y -> exists y', sym_at t' id = Some y' /\ upf (sy_body y) (sy_body y').
Lemma kle_trans a b c : kle a b -> kle b c -> kle a c.
Proof.
  intros A B g k E. destruct (A _ _ E) as (k1 & E1 & G1). destruct (B _ _ E1) as (k2 & E2 & G2). exists k2. split; auto.
  destruct G1 as [->|(Q & ->)]; auto. destruct G2 as [->|(Q2 & ->)]; [right; auto|discriminate].
Qed.
Lemma upf_trans a b c : upf a b -> upf b c -> upf a c.
Proof.
  intros [A|((d & fs & ->) & ->)] [B|((d' & fs' & E) & E')].
  - left. eapply up_trans; eauto.
  - subst b c. right. split; [|reflexivity]. destruct a; try contradiction A. eexists _, _. reflexivity.
  - right. split; [eexists _, _; reflexivity|]. destruct c; try contradiction B. reflexivity.
  - discriminate E.
Qed.
Lemma later_mono t t' : mono t t' -> later t t'.
Proof. intros M. split; [apply mono_le; exact M|]. intros id y Y. destruct (M _ _ Y) as (y' & Y' & U). exists y'. split; auto. left. exact U. Qed.
Lemma later_trans a b c : later a b -> later b c -> later a c.
Proof.
  intros (A & A') (B & B'). split; [eapply kle_trans; eauto|]. intros id y Y. destruct (A' _ _ Y) as (y1 & Y1 & U1). destruct (B' _ _ Y1) as (y2 & Y2 & U2).
  exists y2. split; auto. eapply upf_trans; eauto.
Qed.
Lemma later_refl t : later t t.
Proof. apply later_mono, mono_refl. Qed.
Lemma register_later name t t' D o : register_type name t = COk tt t' -> inv t D o -> later t t'.
Proof.
  intros E (T & S). unfold register_type in E. destruct (prim_tag name); [injection E as <-; apply later_refl|]. destruct (find _ _) as [y|] eqn:F.
  - destruct y as [id n b]. destruct b; try (injection E as <-; apply later_refl). destruct defined; injection E as <-; [apply later_refl|].
    apply find_some in F as (J & _). pose proof (in_sym_at _ _ (td_unique _ T) J) as Y. cbn [sy_id] in Y. split; [exact (foreign_kle _ _ _ _ Y)|].
    intros i z Z. rewrite (sym_at_put _ _ _ _ _ Y). destruct (Nat.eqb_spec i id) as [->|]; [|exists z; split; auto; left; apply up_refl].
    rewrite Y in Z. injection Z as <-. eexists. split; [reflexivity|]. right. cbn. eauto.
  - injection E as <-. apply later_mono. eapply new_mono; [exact T|reflexivity].
Qed.
Lemma sig_args_mono T a gs va T' : spells_sig_args T a gs va T' -> forall D o, inv T D o -> mono T T'.
Proof. intros H D o I. apply (sig_args_next _ _ _ _ _ H _ _ I). Qed.
Lemma signature_mono T a k name gs va ret T' : signature T a k name gs va ret T' -> forall D o, inv T D o -> mono T T'.
Proof.
  intros H D o0 I. destruct H.
  - apply mono_refl.
  - destruct (sig_args_next _ _ _ _ _ H3 _ _ I) as (N & L). apply N.
  - destruct (sig_args_next _ _ _ _ _ H3 _ _ I) as (N & L). destruct (type_next _ _ _ _ _ _ H5 (proj1 N)) as (N2 & L2). eapply mono_trans; [apply N|apply N2].
Qed.
Lemma host_later n op s s' D : host n op s = COk tt s' -> inv (k_tbl s) D None -> later (k_tbl s) (k_tbl s').
Proof.
  intros E I. unfold host, kon_tbl in E. destruct op as [name|sig callee|name c|name].
  - destruct (register_type name (k_tbl s)) as [[] t| | | | |] eqn:Eo; try discriminate. injection E as <-. eapply register_later; eauto.
  - destruct (bind_host n sig callee (k_tbl s)) as [[] t| | | | |] eqn:Eo; try discriminate. injection E as <-.
    destruct (host_sound _ _ _ _ _ Eo) as (a & y & name & gs & va & ret & T1 & _ & Sg & Bf). destruct (signature_next _ _ _ _ _ _ _ _ Sg _ _ I) as (I1 & Lg & Lr).
    apply later_mono. eapply mono_trans; [exact (signature_mono _ _ _ _ _ _ _ _ Sg _ _ I)|]. apply (keeps_foreign _ _ _ _ _ _ _ _ _ _ Bf Lg Lr I1).
  - destruct (bind_const name c (k_tbl s)) as [[] t| | | | |] eqn:Eo; try discriminate. injection E as <-. apply later_mono. destruct c; cbn [bind_const] in Eo.
    4: { apply cbind_ok in Eo as (i & t1 & E1 & Eo). destruct (keeps_intern _ _ _ _ _ _ E1 I) as (I1 & M1 & _). eapply mono_trans; [exact M1|]. apply (keeps_const _ _ _ _ _ _ _ Eo I1). }
    all: apply (keeps_const _ _ _ _ _ _ _ Eo I).
  - destruct (bind_macro name (k_tbl s)) as [[] t| | | | |] eqn:Eo; try discriminate. injection E as <-. apply later_mono. apply (keeps_macro _ _ _ _ _ _ Eo I).
Qed.
Lemma binds_later s s' D : binds s s' -> inv (k_tbl s) D None -> inv (k_tbl s') D None /\ later (k_tbl s) (k_tbl s').
Proof.
  induction 1 as [s|n o s s1 s2 E B IH]; intros I; [split; [exact I|apply later_refl]|].
  destruct (IH (host_settled _ _ _ _ _ E I)) as (I2 & L2). split; auto. eapply later_trans; [exact (host_later _ _ _ _ _ E I)|exact L2].
Qed.

(** ** What the parser has left stays good enough *)
Section Later.
Variables t t' : tbl.
Hypothesis L : later t t'.
Lemma later_vtag r : vtag t r <> None -> vtag t' r <> None /\ (knows t r -> knows t' r).
Proof.
  intros V. destruct L as (_ & M). unfold vtag in V. destruct (sym_at t (ref_sym r)) as [y|] eqn:Y; [|congruence]. destruct (M _ _ Y) as (y' & Y' & [U|((d & fs & B) & _)]).
  - destruct (sym_at_in _ _ _ Y) as (_ & E1). destruct (sym_at_in _ _ _ Y') as (_ & E2).
    set (t1 := mkTbl [y] 0 [] 0 0 0 0 None). set (t2 := mkTbl [y'] 0 [] 0 0 0 0 None). assert (M1 : mono t1 t2).
    { intros id z Z. unfold sym_at in Z |- *. cbn in Z |- *. rewrite E1 in Z. rewrite E2.
      destruct (Nat.eqb (ref_sym r) id); [|discriminate Z]. injection Z as <-. exists y'. auto. }
    assert (S1 : sym_at t1 (ref_sym r) = Some y) by (unfold sym_at; cbn; rewrite E1, Nat.eqb_refl; reflexivity).
    assert (S2 : sym_at t2 (ref_sym r) = Some y') by (unfold sym_at; cbn; rewrite E2, Nat.eqb_refl; reflexivity).
    assert (Q1 : vtag t1 r = vtag t r) by (unfold vtag; rewrite S1, Y; reflexivity). assert (Q2 : vtag t2 r = vtag t' r) by (unfold vtag; rewrite S2, Y'; reflexivity).
    split.
    + rewrite <- Q2. apply (mono_var _ _ _ M1). unfold is_var. rewrite Q1. unfold vtag. rewrite Y. exact V.
    + unfold knows. rewrite <- Q1, <- Q2. apply (mono_knows _ _ _ M1).
  - exfalso. apply V. destruct y as [i n b]. cbn in B. subst b. destruct r; reflexivity.
Qed.
Lemma later_knows r : knows t r -> knows t' r.
Proof. intros K. apply later_vtag; [|exact K]. destruct K as (g & ->). discriminate. Qed.
Lemma later_var r : is_var t r -> is_var t' r.
Proof. intros V. apply later_vtag. exact V. Qed.
Lemma later_func id : is_func t id -> is_func t' id.
Proof.
  intros (y & i & a & l & r & Y & B). destruct L as (_ & M). destruct (M _ _ Y) as (y' & Y' & [U|((d & fs & B') & _)]); [|congruence].
  rewrite B in U. destruct (sy_body y') eqn:B'; try contradiction. exists y'. eauto 10.
Qed.
Lemma later_struct id : (forall name, ~ denotes t' id name SyForeignTag) -> is_struct t id -> is_struct t' id.
Proof.
  intros N (y & d & fs & Y & B). destruct L as (_ & M). destruct (M _ _ Y) as (y' & Y' & U). rewrite B in U. destruct U as [U|(_ & U)].
  - destruct (sy_body y') eqn:B'; try contradiction. exists y'. eauto.
  - exfalso. apply (N (sy_name y')). apply denotes_at. destruct (sym_at_in _ _ _ Y') as (_ & Ei). rewrite Y', <- U, <- Ei. destruct y'; reflexivity.
Qed.
Definition fresh_news (l : list nat) : Prop := forall id name, In id l -> ~ denotes t' id name SyForeignTag.
Lemma fresh_app a b : fresh_news (a ++ b) -> fresh_news a /\ fresh_news b.
Proof. intros F. split; intros id n J; apply F, in_or_app; auto. Qed.
Lemma ok_t_later e : fresh_news (news e) -> ok_t t e -> ok_t t' e.
Proof.
  induction e using expr_ind'; cbn [ok_t news]; auto; intros F.
  - intros A. induction H as [|z l Hz _ IHl]; [exact Logic.I|]. cbn in F. apply fresh_app in F as (F1 & F2). destruct A as (A1 & A2). split; [apply Hz; assumption|exact (IHl F2 A2)].
  - apply fresh_app in F as (F1 & F2). intros (A & B). auto.
  - intros (S & A). split; [apply later_struct; [intros nm; apply F; left; reflexivity|exact S]|].
    assert (F' : fresh_news (flat_map news args)) by (intros id' n' J; apply F; right; exact J). clear F.
    induction H as [|z l Hz _ IHl]; [exact Logic.I|]. cbn in F'. apply fresh_app in F' as (F1 & F2). destruct A as (A1 & A2). split; [apply Hz; assumption|exact (IHl A2 F2)].
  - intros (A & B). split; auto. eapply live_le; [apply L|exact B].
  - apply fresh_app in F as (F1 & F2). intros (A & B). auto.
  - apply fresh_app in F as (F1 & F2). apply fresh_app in F2 as (F2 & F3). intros (A & B & C). auto.
Qed.
Lemma ok_ref_later D r : ok_ref t D r -> ok_ref t' D r.
Proof. intros [K|K]; [left; apply later_knows; exact K|right; exact K]. Qed.
Lemma ok_e_later D e : fresh_news (news e) -> ok_e t D e -> ok_e t' D e.
Proof. intros F (A & B). split; [|apply ok_t_later; assumption]. revert A. apply Forall_impl. intros r. apply ok_ref_later. Qed.
Lemma ok_es_later D e : fresh_news (flat_map news e) -> ok_es t D e -> ok_es t' D e.
Proof.
  intros F (A & B). split; [revert A; apply Forall_impl; intros r; apply ok_ref_later|].
  clear A. induction e as [|z e IH]; auto. cbn in F. apply fresh_app in F as (F1 & F2). destruct B as (B & C). split; [apply ok_t_later; assumption|exact (IH F2 C)].
Qed.
Lemma ok_s_later s : fresh_news (made s) -> forall D fn, ok_s t D fn s -> ok_s t' D fn s.
Proof.
  induction s using stmt_ind'; intros F D fn; cbn [ok_s made] in *; auto.
  - apply ok_es_later. exact F.
  - apply fresh_app in F as (F1 & F2). destruct (tok_eqb o DECLARE).
    + destruct l; auto. destruct r0; auto. intros (A & B & C). split; [apply ok_e_later; assumption|]. split; auto. apply later_var. exact B.
    + intros (A & B). split; apply ok_e_later; assumption.
  - revert D. induction H as [|z l Hz _ IHl]; intros D A; [exact Logic.I|]. cbn in F. apply fresh_app in F as (F1 & F2). destruct A as (A1 & A2). split; [apply Hz; assumption|exact (IHl F2 _ A2)].
  - intros (A & B). split; auto. apply later_func. exact A.
  - apply fresh_app in F as (F1 & F2). apply fresh_app in F2 as (F2 & F3). intros (A & B & C). split; [apply ok_e_later; assumption|]. split; auto. destruct b; auto.
  - apply fresh_app in F as (F1 & F2). intros (A & B). split; auto. apply ok_e_later; assumption.
  - apply fresh_app in F as (F1 & F2). apply fresh_app in F2 as (F2 & F3). apply fresh_app in F3 as (F3 & F4). intros (A & B & C & E). split; auto. split; [apply ok_e_later; assumption|]. auto.
  - intros (A & B). split; auto. destruct e; auto. apply ok_e_later; assumption.
Qed.
Lemma ok_ss_later ss : fresh_news (flat_map made ss) -> forall D fn, ok_ss t fn D ss -> ok_ss t' fn D ss.
Proof. induction ss as [|s ss IH]; intros F D fn; [auto|]. cbn in F. apply fresh_app in F as (F1 & F2). intros (A & B). split; [apply ok_s_later; assumption|apply IH; assumption]. Qed.
End Later.

(** ** Running the macros answers *)
Lemma uses_snoc mods pre : forall s s1 st s2, uses mods pre s s1 -> uses mods [st] s1 s2 -> uses mods (pre ++ [st]) s s2.
Proof.
  intros s s1 st s2 U V. induction U as [s|n m args as_ ss s s1 s3 X L E U IH|st' ss s s1 N U IH]; [exact V| |]; cbn [app].
  - eapply us_use; eauto.
  - apply us_other; auto.
Qed.
Lemma uses_answer mods s0 src a x T : macros_answer mods s0 src -> tokens src a x ->
  forall post pre s, GrammarStmt.program (k_tbl s0) a x (pre ++ post) T -> uses mods pre (set_tbl s0 T) s ->
  (exists s1, run_uses mods post s = COk tt s1) \/ exists s1, run_uses mods post s = CFail s1.
Proof.
  intros A Tk. induction post as [|st post IH]; intros pre s Pr Us; [left; eexists; reflexivity|].
  assert (Pr' : GrammarStmt.program (k_tbl s0) a x ((pre ++ [st]) ++ post) T) by (rewrite <- app_assoc; exact Pr).
  assert (C : (exists n m args as_, st = SUse n m args as_) \/ (forall n m args as_, st <> SUse n m args as_)).
  { destruct st; try (right; intros; discriminate). left. eauto. }
  destruct C as [(n & m & args & as_ & ->)|Nu].
  - cbn [run_uses]. destruct (existsb (fun y => match sy_body y with SyModule => text_eqb (sy_name y) m | _ => false end) (tb_syms (k_tbl s))) eqn:Ex.
    + assert (Mc : exists y, In y (tb_syms (k_tbl s)) /\ a_macro m y).
      { apply existsb_exists in Ex as (y & I & Q). exists y. split; [exact I|]. unfold a_macro. destruct (sy_body y); try discriminate. apply text_eqb_eq in Q. auto. }
      destruct (A _ _ _ _ _ _ _ _ _ _ Tk Pr Us Mc) as (L & s' & [(b & E)|E]).
      * destruct (Nat.ltb_spec 128 (length args)); [lia|]. destruct b.
        -- assert (Us1 : uses mods [SUse n m args as_] s s') by (eapply us_use; [exact Mc|exact L|exact E|constructor]).
           destruct (IH _ _ Pr' (uses_snoc _ _ _ _ _ _ Us Us1)) as [(s1 & R)|(s1 & R)]; [left|right]; exists s1; unfold cbind at 1; unfold cbind at 1; rewrite Ex, E; exact R.
        -- right. exists s'. unfold cbind at 1. unfold cbind at 1. rewrite Ex, E. reflexivity.
      * right. exists s'. destruct (Nat.ltb_spec 128 (length args)); [lia|]. unfold cbind at 1. unfold cbind at 1. rewrite Ex, E. reflexivity.
    + right. exists s. unfold cbind at 1. rewrite Ex. reflexivity.
  - assert (Q : run_uses mods (st :: post) = run_uses mods post) by (destruct st; try reflexivity; exfalso; eapply Nu; reflexivity). rewrite Q.
    apply (IH (pre ++ [st])); [exact Pr'|]. eapply uses_snoc; [exact Us|]. apply us_other; [exact Nu|constructor].
Qed.

(** ** C53 *)
Theorem compiler_answers_with_macros : forall s0 fuel mods file src, reachable s0 -> plain_source src -> room_after mods s0 file src ->
  (forall m args as_ x b x', mods m args as_ x = COk b x' -> binds x x') ->
  parse_fuel (fst (lex_all src)) <= fuel -> nothing_pending s0 -> no_self_source s0 src -> macros_answer mods s0 src -> macros_sound mods s0 src ->
  match compile_string fuel mods file src s0 with
  | COk _ _ | CFail _ => True
  | CHang => exists g q, src = g ++ ch_dquote :: q /\ ~ closed q
  | CAbort | CUB | CFuel => False
  end.
Proof.
  intros s0 fuel mods file src R Si Rm Hm L Np Ns Ma Ms.
  pose proof (parser_answers s0 src fuel R) as A. destruct Rm as (Rm & Rf). specialize (A ltac:(lia) L). destruct (parse_program fuel (start_parse (k_tbl s0) src)) as [ss p|p| | | |] eqn:P; try contradiction.
  - assert (Gp : exists a x, tokens src a x /\ GrammarStmt.program (k_tbl s0) a x ss (ps_tbl p)) by (apply programs_by_grammar; eauto).
    destruct Gp as (a & x & Tk & Pr). pose proof (Ns _ _ _ _ Tk Pr) as Nf. pose proof (reachable_loaded _ R) as Ld. pose proof (ld_func _ _ Ld) as Fu.
    destruct (parsed_facts _ _ _ _ _ R P) as (G & _ & Lb). pose proof (gd_unique _ _ G) as U.
    destruct (program_next _ _ _ _ _ Pr [] (reachable_settled _ R)) as ((I & M & Fe) & Ok). unfold in_fn in Ok. rewrite Fu in Ok.
    destruct (uses_answer mods s0 src a x (ps_tbl p) Ma Tk ss [] (set_tbl s0 (ps_tbl p)) Pr (us_done _ _)) as [(s1 & Us)|(s1 & Us)].
    + pose proof (proj1 (uses_run _ _ _ _) Us) as Us'. pose proof (uses_binds _ _ Hm _ _ Us') as Bn.
      destruct (Ms _ _ _ _ _ Tk Pr Us') as (Nd & Nw). destruct (binds_inv _ _ Bn G) as (Es & Gr). cbn [k_tbl set_tbl] in Gr.
      destruct (binds_later _ _ _ Bn I) as (I1 & La). cbn [k_tbl set_tbl] in La.
      pose proof (gr_good _ _ _ Gr G) as G1. pose proof (gd_unique _ _ G1) as U1. pose proof (gr_labels _ _ _ _ Gr G) as Lb1.
      unfold compile_string. rewrite (body_uses fuel mods file src s0 ss p s1 P Us). cbn zeta.
      destruct (forallb struct_defined (slice (tb_syms (k_tbl s1)) (length (tb_syms (k_tbl s0))) (length (tb_syms (ps_tbl p))))) eqn:Fd; [|exact Logic.I].
      pose proof (proj2 (own_defined_iff _ _ _ Lb Lb1 U U1) Fd) as Sd.
      assert (Ad : all_defined (k_tbl s1)).
      { assert (Ex : LayTable.extends (k_tbl s0) (ps_tbl p)) by (destruct (program_inv _ _ _ _ _ Fu P) as (Gr0 & _); eapply grew_extends; [exact Gr0|apply Ld|exact Fu]).
        assert (Fp : tb_func (ps_tbl p) = None) by congruence.
        intros id [i n b] d fs Y B. cbn in B. subst b. destruct (sym_at_in _ _ _ Y) as (_ & Q). cbn in Q. subst i.
        assert (Dn : denotes (k_tbl s1) id n (SyStruct d fs)) by (apply denotes_at; exact Y).
        destruct (sym_at (k_tbl s0) id) as [[i0 n0 b0]|] eqn:Y0.
        - destruct (ParserInv.undefined (mkSym i0 n0 b0)) eqn:Un.
          + unfold ParserInv.undefined in Un. cbn in Un. destruct b0; try discriminate. destruct defined; try discriminate. pose proof (pending_defined _ Np _ _ _ _ Y0 eq_refl). discriminate.
          + destruct (ex_at _ _ Ex _ _ Y0 Un) as ([i1 n1 b1] & Y1 & Er1).
            assert (Un1 : ParserInv.undefined (mkSym i1 n1 b1) = false).
            { unfold erase in Er1. cbn in Er1. injection Er1 as _ _ Eb. unfold ParserInv.undefined in *. cbn in *. destruct b1; auto. destruct b0; try discriminate. cbn in Eb. injection Eb as -> ->. exact Un. }
            destruct (gr_old _ _ _ Gr G id _ Y1 ltac:(rewrite Fp; discriminate) ltac:(discriminate) Un1) as (y' & Y' & Er2). rewrite Y in Y'. injection Y' as <-.
            unfold erase in Er1, Er2. cbn in Er1, Er2. injection Er1 as _ _ Eb1. injection Er2 as _ _ Eb2. destruct b1; try discriminate. cbn in Eb1, Eb2. injection Eb2 as <- <-.
            destruct b0; try discriminate. cbn in Eb1. injection Eb1 as -> ->. exact (pending_defined _ Np _ _ _ _ Y0 eq_refl).
        - destruct (Nd _ _ _ _ Dn) as [InT|Q]; [|exact Q]. apply (Sd id n d fs Dn InT). intros nm b D. apply denotes_at in D. congruence. }
      assert (C : ctx (k_tbl s1) [] false (k_tbl s1)).
      { split; [eauto|]. split; [apply mono_refl|]. split; [exact Ad|]. split; [intros r []|discriminate]. }
      pose proof (ok_ss_later _ _ La ss Nw _ _ Ok) as Ok1.
      destruct (all_tot _ _ _ _ _ Ok1 Nf C) as [(ts & T' & E)|(T' & E)].
      * apply program_typed_by_rules in E; [|exact U1].
        destruct (used_outcome s0 fuel mods file src a x ss (ps_tbl p) s1 ts T' R Si (conj Rm Rf) Hm L Tk Pr Us' Sd E) as [(_ & s & Q)|(_ & s & Q)];
          unfold compile_string in Q; rewrite (body_uses fuel mods file src s0 ss p s1 P Us) in Q; cbn zeta in Q; rewrite Fd in Q; rewrite Q; exact Logic.I.
      * destruct (state_fails file ss s1 T' E) as (s' & ->). exact Logic.I.
    + unfold compile_string, compile_body. unfold cbind at 1. unfold cbind at 1. rewrite P. unfold cbind at 1. unfold cbind at 1. rewrite Us. exact Logic.I.
  - unfold compile_string, compile_body, cbind. rewrite P. exact Logic.I.
  - unfold compile_string, compile_body, cbind. rewrite P. exact A.
Qed.
Print Assumptions compiler_answers_with_macros.

(** ** Cases *)
Lemma one_program s src n ss p : parse_program n (start_parse (k_tbl s) src) = COk ss p ->
  forall a x ss' T, tokens src a x -> GrammarStmt.program (k_tbl s) a x ss' T -> ss' = ss /\ T = ps_tbl p.
Proof.
  intros P a x ss' T Tk Pr. assert (Gp : exists a x, tokens src a x /\ GrammarStmt.program (k_tbl s) a x ss (ps_tbl p)) by (apply programs_by_grammar; eauto).
  destruct Gp as (a0 & x0 & Tk0 & Pr0). unfold tokens in *. rewrite Tk in Tk0. injection Tk0 as <- <-. destruct (program_unambiguous _ _ _ _ _ _ _ Pr Pr0) as (-> & ->). auto.
Qed.
(** The macros of [ss] run from [s], whether they answer *)
Fixpoint answering (mods : text -> macro) (ss : list stmt) (s : kst) : bool :=
  match ss with
  | [] => true
  | SUse _ m args as_ :: ss' =>
      (length args <=? 128)%nat &&
      match mods m args as_ s with COk true s' => answering mods ss' s' | COk false _ | CFail _ => true | _ => false end
  | _ :: ss' => answering mods ss' s
  end.
Lemma answering_answer mods pre : forall n m args as_ post s s', answering mods (pre ++ SUse n m args as_ :: post) s = true -> uses mods pre s s' ->
  length args <= 128 /\ exists x, (exists b, mods m args as_ s' = COk b x) \/ mods m args as_ s' = CFail x.
Proof.
  induction pre as [|st pre IH]; intros n m args as_ post s s' A U.
  - inversion U; subst. cbn [answering app] in A. apply andb_prop in A as (A & B). split; [apply Nat.leb_le; exact A|].
    destruct (mods m args as_ s') as [[] y|y| | | |]; try discriminate; exists y; eauto.
  - cbn [app] in A. inversion U; subst.
    + cbn [answering] in A. apply andb_prop in A as (_ & A). match goal with E : mods _ _ _ _ = COk true _ |- _ => rewrite E in A end. eapply IH; eauto.
    + eapply IH; [|eassumption]. destruct st; try exact A. exfalso. match goal with N : forall _ _ _ _, _ <> _ |- _ => eapply N; reflexivity end.
Qed.
Lemma nothing_by s : forallb struct_defined (tb_syms (k_tbl s)) = true -> nothing_pending s.
Proof. intros B id name d fs D. apply denotes_at in D. apply sym_at_in in D as (J & _). rewrite forallb_forall in B. exact (B _ J). Qed.

(** The program of [uses_case] *)
Definition uses_tree : list stmt := Eval vm_compute in match parse_program uses_fuel (start_parse (k_tbl lib_s1) lib_src) with COk ss _ => ss | _ => [] end.
Definition uses_pst : pst := Eval vm_compute in match parse_program uses_fuel (start_parse (k_tbl lib_s1) lib_src) with COk _ p => p | _ => start_parse init_tbl [] end.
Lemma uses_parse : parse_program uses_fuel (start_parse (k_tbl lib_s1) lib_src) = COk uses_tree uses_pst.
Proof. vm_cast_no_check (eq_refl (@COk pst _ uses_tree uses_pst)). Qed.
Definition uses_end : kst := Eval vm_compute in match run_uses lib_mods uses_tree (set_tbl lib_s1 (ps_tbl uses_pst)) with COk _ s => s | _ => lib_s1 end.
Lemma uses_ran : run_uses lib_mods uses_tree (set_tbl lib_s1 (ps_tbl uses_pst)) = COk tt uses_end.
Proof. vm_cast_no_check (eq_refl (@COk kst _ tt uses_end)). Qed.
Example uses_answer_case : nothing_pending lib_s1 /\ no_self_source lib_s1 lib_src /\ macros_answer lib_mods lib_s1 lib_src /\ macros_sound lib_mods lib_s1 lib_src.
Proof.
  split; [apply nothing_by; vm_cast_no_check (eq_refl true)|]. split; [|split].
  - apply (one_parse _ _ _ _ _ uses_parse). unfold uses_tree. repeat constructor; cbn; intuition discriminate.
  - intros a x pre n m args as_ post T s Tk Pr U _. destruct (one_program _ _ _ _ _ uses_parse _ _ _ _ Tk Pr) as (E & ->).
    refine (answering_answer lib_mods pre n m args as_ post _ _ _ U). rewrite E. vm_cast_no_check (eq_refl true).
  - intros a x ss T s1 Tk Pr U. destruct (one_program _ _ _ _ _ uses_parse _ _ _ _ Tk Pr) as (-> & ->). apply uses_run in U. rewrite uses_ran in U. injection U as <-. split.
    + intros id name d fs D. right. exact (nothing_by uses_end ltac:(vm_cast_no_check (eq_refl true)) id name d fs D).
    + intros id name J. cbn in J. contradiction.
Qed.

(** Making a structure with [new] of a name that a macro then makes a type of the
    host's stops the compiler: tiny.c:2875 asserts that a structure is defined that is
    none any more (all hypotheses but the last half of [macros_sound] hold) *)
Definition crash_src : text := text_of "use array(""int"") as ints x := new ints{}".
Definition crash_fuel : nat := Eval vm_compute in parse_fuel (fst (lex_all crash_src)).
Definition crash_tree : list stmt := Eval vm_compute in match parse_program crash_fuel (start_parse (k_tbl lib_s1) crash_src) with COk ss _ => ss | _ => [] end.
Definition crash_pst : pst := Eval vm_compute in match parse_program crash_fuel (start_parse (k_tbl lib_s1) crash_src) with COk _ p => p | _ => start_parse init_tbl [] end.
Lemma crash_parse : parse_program crash_fuel (start_parse (k_tbl lib_s1) crash_src) = COk crash_tree crash_pst.
Proof. vm_cast_no_check (eq_refl (@COk pst _ crash_tree crash_pst)). Qed.
Lemma crash_conditions : plain_source crash_src /\ room_after lib_mods lib_s1 None crash_src /\ nothing_pending lib_s1 /\ no_self_source lib_s1 crash_src /\ macros_answer lib_mods lib_s1 crash_src.
Proof.
  split; [|split; [|split; [apply uses_answer_case|split]]].
  - unfold plain_source. apply Forall_forall. intros t I K Q.
    assert (B : forallb (fun t => negb ((tk_i t =? - 2 ^ 31)%Z)) (fst (lex_all crash_src)) = true) by (vm_cast_no_check (eq_refl true)).
    rewrite forallb_forall in B. specialize (B t I). rewrite Q in B. discriminate.
  - split; [apply Nat.leb_le; vm_cast_no_check (eq_refl true)|intros N; congruence].
  - apply (one_parse _ _ _ _ _ crash_parse). unfold crash_tree. repeat constructor; cbn; intuition discriminate.
  - intros a x pre n m args as_ post T s Tk Pr U _. destruct (one_program _ _ _ _ _ crash_parse _ _ _ _ Tk Pr) as (E & ->).
    refine (answering_answer lib_mods pre n m args as_ post _ _ _ U). rewrite E. vm_cast_no_check (eq_refl true).
Qed.
Lemma crash_result : outcome (compile_string crash_fuel lib_mods None crash_src lib_s1) = 3.
Proof. vm_cast_no_check (eq_refl 3). Qed.
Theorem new_of_host_type_refuted : exists s0 fuel mods src, reachable s0 /\ plain_source src /\ room_after mods s0 None src /\
  (forall m args as_ x b x', mods m args as_ x = COk b x' -> binds x x') /\ parse_fuel (fst (lex_all src)) <= fuel /\
  nothing_pending s0 /\ no_self_source s0 src /\ macros_answer mods s0 src /\
  match compile_string fuel mods None src s0 with COk _ _ | CFail _ => False | _ => True end.
Proof.
  exists lib_s1, crash_fuel, lib_mods, crash_src. destruct crash_conditions as (A & B & C & D & E). split; [apply lib_reachable|]. split; [exact A|]. split; [exact B|].
  split; [exact lib_mods_binds|]. split; [apply Nat.leb_le; vm_cast_no_check (eq_refl true)|]. split; [exact C|]. split; [exact D|]. split; [exact E|].
  pose proof crash_result as Q. destruct (compile_string crash_fuel lib_mods None crash_src lib_s1); try discriminate Q; exact Logic.I.
Qed.
Print Assumptions new_of_host_type_refuted.
