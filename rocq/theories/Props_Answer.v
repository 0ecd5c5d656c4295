(** * C47: compiling always comes to an answer *)
From Verif Require Import Base Token Lexer LexerSpec Values Strings Code FileLine Syntax Symbols Parser Resolve Compile Layout LayoutProofs CompileProofs TableInv.
From Verif Require Import ParserInv ResolveInv ParserTotal Host HostInv LayTable Whole Grammar GrammarStmt Props_Compile Props_Parser Props_Stmt Props_Names Props_Typing.
From Verif Require Import Typing TypingProofs TypingExpr TypingStmt Accept AcceptStmt AcceptWhole TagTable Props_Accept Settled SettledParse Answer SettledResolve SettledStmt SettledWhole.
Local Open Scope nat_scope.

(** No structure has been mentioned (in the signature of a function the host
    bound) without having been defined. *)
Definition nothing_pending (s : kst) : Prop := forall id name d fs, denotes (k_tbl s) id name (SyStruct d fs) -> d = true.
(** No declaration [x := e] of the source mentions [x] in [e] (Answer.v). *)
Definition no_self_source (s : kst) (src : text) : Prop := forall a x ss T,
  tokens src a x -> GrammarStmt.program (k_tbl s) a x ss T -> Forall no_self ss.

Lemma pending_defined s : nothing_pending s -> all_defined (k_tbl s).
Proof. intros P id [i n b] d fs Y B. cbn in B. subst b. apply (P id n d fs). apply denotes_at. pose proof (sym_at_id _ _ _ Y) as Q. cbn in Q. congruence. Qed.
Lemma parsed_defined told T : unique T -> extends told T -> all_defined told -> structs_defined told T -> all_defined T.
Proof.
  intros U Ex A Sd id [i n b] d fs Y B. cbn in B. subst b. destruct (sym_at told id) as [[i0 n0 b0]|] eqn:Y0.
  - destruct (undefined (mkSym i0 n0 b0)) eqn:Un.
    + unfold undefined in Un. cbn in Un. destruct b0; try discriminate. destruct defined; try discriminate. pose proof (A _ _ _ _ Y0 eq_refl). discriminate.
    + destruct (ex_at _ _ Ex _ _ Y0 Un) as (y' & Y' & Er). rewrite Y in Y'. injection Y' as <-. unfold erase in Er. cbn in Er. injection Er as -> -> Eb.
      destruct b0; try discriminate. cbn in Eb. injection Eb as -> ->. exact (A _ _ _ _ Y0 eq_refl).
  - apply (Sd id n d fs).
    + apply denotes_at. pose proof (sym_at_id _ _ _ Y) as Q. cbn in Q. congruence.
    + intros nm b D. apply denotes_at in D. congruence.
Qed.
Lemma state_fails file ss s T : resolve_all ss (k_tbl s) = CFail T -> exists s', compile_state file ss s = CFail s'.
Proof.
  intros E. unfold compile_state. rewrite (cb_ok (fun s => COk (k_hist s) s) _ s (k_hist s) s eq_refl).
  rewrite (cb_ok _ _ s tt (set_code s (drop_halt (k_code s))) eq_refl). eexists. apply cb_fail. unfold kon_tbl. cbn [k_tbl set_code]. rewrite E. reflexivity.
Qed.

Theorem compiler_answers : forall s0 fuel mods file src, reachable s0 -> simple_source src -> enough_room s0 file src ->
  parse_fuel (fst (lex_all src)) <= fuel -> nothing_pending s0 -> no_self_source s0 src ->
  match compile_string fuel mods file src s0 with
  | COk _ _ | CFail _ => True
  | CHang => exists g q, src = g ++ ch_dquote :: q /\ ~ closed q
  | CAbort | CUB | CFuel => False
  end.
Proof.
  intros s0 fuel mods file src R Si Rm L Np Ns. pose proof Rm as Rm0. unfold enough_room in Rm0.
  pose proof (parser_answers s0 src fuel R ltac:(lia) L) as A. destruct (parse_program fuel (start_parse (k_tbl s0) src)) as [ss p|p| | | |] eqn:P; try contradiction.
  - assert (Gp : exists a x, tokens src a x /\ GrammarStmt.program (k_tbl s0) a x ss (ps_tbl p)) by (apply programs_by_grammar; eauto).
    destruct Gp as (a & x & Tk & Pr). pose proof (Ns _ _ _ _ Tk Pr) as Nf. pose proof (reachable_loaded _ R) as Ld. pose proof (ld_func _ _ Ld) as Fu.
    destruct (parsed_facts _ _ _ _ _ R P) as (G & _ & Lb). pose proof (gd_unique _ _ G) as U.
    assert (Nt : Forall (fun st => match st with SUse _ _ _ _ => False | _ => True end) ss).
    { assert (Ta : fst (lex_all src) = a) by (unfold tokens in Tk; rewrite Tk; reflexivity). apply (no_use_tokens _ _ _ _ _ Pr). unfold simple_source in Si. rewrite Ta in Si.
      revert Si. apply Forall_impl. tauto. }
    destruct (program_next _ _ _ _ _ Pr [] (reachable_settled _ R)) as ((I & M & Fe) & Ok). unfold in_fn in Ok. rewrite Fu in Ok.
    destruct (forallb struct_defined (skipn (length (tb_syms (k_tbl s0))) (tb_syms (ps_tbl p)))) eqn:Fd.
    + apply (defined_iff _ _ U Lb) in Fd. pose proof Fd as Sd.
      assert (Ad : all_defined (ps_tbl p)).
      { eapply parsed_defined; [exact U| |apply pending_defined; exact Np|exact Sd].
        destruct (program_inv _ _ _ _ _ Fu P) as (Gr & _). eapply grew_extends; [exact Gr|apply Ld|exact Fu]. }
      assert (C : ctx (ps_tbl p) [] false (ps_tbl p)).
      { split; [eauto|]. split; [apply mono_refl|]. split; [exact Ad|]. split; [intros r []|discriminate]. }
      destruct (all_tot _ _ _ _ _ Ok Nf C) as [(ts & T' & E)|(T' & E)].
      * apply program_typed_by_rules in E; [|exact U].
        destruct (typed_outcome s0 fuel mods file src a x ss (ps_tbl p) ts T' R Si Rm L Tk Pr Sd E) as [(_ & s & ->)|(_ & s & ->)]; exact Logic.I.
      * destruct (state_fails file ss (set_tbl s0 (ps_tbl p)) T' E) as (s' & Ef).
        unfold compile_string. rewrite (body_parsed fuel mods file src s0 ss p P Nt). cbn zeta. rewrite (proj1 (defined_iff _ _ U Lb) Sd), Ef. exact Logic.I.
    + unfold compile_string. rewrite (body_parsed fuel mods file src s0 ss p P Nt). cbn zeta. rewrite Fd. exact Logic.I.
  - unfold compile_string, compile_body, cbind. rewrite P. exact Logic.I.
  - unfold compile_string, compile_body, cbind. rewrite P. exact A.
Qed.
Print Assumptions compiler_answers.

(** ** Cases *)
Lemma one_parse s src n ss p : parse_program n (start_parse (k_tbl s) src) = COk ss p -> Forall no_self ss -> no_self_source s src.
Proof.
  intros P N a x ss' T Tk Pr. assert (Gp : exists a x, tokens src a x /\ GrammarStmt.program (k_tbl s) a x ss (ps_tbl p)) by (apply programs_by_grammar; eauto).
  destruct Gp as (a0 & x0 & Tk0 & Pr0). unfold tokens in *. rewrite Tk in Tk0. injection Tk0 as <- <-. destruct (program_unambiguous _ _ _ _ _ _ _ Pr Pr0) as (-> & _). exact N.
Qed.
Definition halt_mods : text -> macro := fun _ _ _ _ => CAbort.
Definition outcome {A} (r : cres kst A) : nat := match r with COk _ _ => 0 | CFail _ => 1 | CAbort => 2 | CUB => 3 | CHang => 4 | CFuel => 5 end.

(** A state where the host has bound [mk(): P] and has not said what [P] is *)
Definition ans_s0 : kst := Eval vm_compute in match create_state with COk _ s => s | _ => init_kst end.
Definition ans_s1 : kst := Eval vm_compute in match host 20 (HFun (text_of "mk(): P") 2) ans_s0 with COk _ s => s | _ => init_kst end.
Definition ans_s2 : kst := Eval vm_compute in match host 20 (HType (text_of "P")) ans_s1 with COk _ s => s | _ => init_kst end.
Lemma ans_r0 : reachable ans_s0.
Proof. exists ans_s0. split; [vm_cast_no_check (eq_refl (@COk kst _ tt ans_s0))|apply st_refl]. Qed.
Lemma ans_h1 : host 20 (HFun (text_of "mk(): P") 2) ans_s0 = COk tt ans_s1.
Proof. vm_cast_no_check (eq_refl (@COk kst _ tt ans_s1)). Qed.
Lemma ans_h2 : host 20 (HType (text_of "P")) ans_s1 = COk tt ans_s2.
Proof. vm_cast_no_check (eq_refl (@COk kst _ tt ans_s2)). Qed.
Lemma ans_r1 : reachable ans_s1.
Proof. destruct ans_r0 as (s & C & S). exists s. split; [exact C|]. eapply steps_app; [exact S|]. eapply st_host; [exact ans_h1|apply st_refl]. Qed.
Lemma ans_r2 : reachable ans_s2.
Proof. destruct ans_r1 as (s & C & S). exists s. split; [exact C|]. eapply steps_app; [exact S|]. eapply st_host; [exact ans_h2|apply st_refl]. Qed.
(** A source with a structure, functions, loops and a host function, and one with
    a type error in a function *)
Definition ans_src : text := text_of "
struct Q { p: P n: int }
func f(q: Q, k: int): int { r := q.n while r < k { r += 1 } return r }
q := new Q{ mk(), 3 }
for i := 0; i < 4; i += 1 { q.n = f(q, i) }
p := q.p
p = mk()".
Definition ans_bad : text := text_of "struct Q { p: P n: int } func f(q: Q): int { r := q.n return q.p } x := f(new Q{ mk(), 3 })".
Definition ans_tree : list stmt := Eval vm_compute in match parse_program 900 (start_parse (k_tbl ans_s2) ans_src) with COk ss _ => ss | _ => [] end.
Definition ans_pst : pst := Eval vm_compute in match parse_program 900 (start_parse (k_tbl ans_s2) ans_src) with COk _ p => p | _ => start_parse init_tbl [] end.
Definition bad_tree : list stmt := Eval vm_compute in match parse_program 600 (start_parse (k_tbl ans_s2) ans_bad) with COk ss _ => ss | _ => [] end.
Definition bad_pst : pst := Eval vm_compute in match parse_program 600 (start_parse (k_tbl ans_s2) ans_bad) with COk _ p => p | _ => start_parse init_tbl [] end.
Ltac by_symbols := intros id name d fs (y & a & E & Id & _); revert E; vm_compute; intros E.
Lemma ans_nothing : nothing_pending ans_s2.
Proof.
  intros id name d fs D. apply denotes_at in D. apply sym_at_in in D as (J & _). revert J. unfold ans_s2. cbn [k_tbl tb_syms].
  cbn [In]. intros J. repeat (destruct J as [J|J]; [discriminate J|]). contradiction.
Qed.
Lemma ans_no_self : no_self_source ans_s2 ans_src.
Proof.
  apply (one_parse _ _ 900 ans_tree ans_pst); [vm_cast_no_check (eq_refl (@COk pst _ ans_tree ans_pst))|].
  unfold ans_tree. repeat constructor; cbn; intuition discriminate.
Qed.
Lemma bad_no_self : no_self_source ans_s2 ans_bad.
Proof.
  apply (one_parse _ _ 600 bad_tree bad_pst); [vm_cast_no_check (eq_refl (@COk pst _ bad_tree bad_pst))|].
  unfold bad_tree. repeat constructor; cbn; intuition discriminate.
Qed.
Definition simple_b (src : text) : bool := forallb (fun t => negb (tok_eqb (tk t) USE) && (negb (tok_eqb (tk t) INT) || negb (tk_i t =? - 2^31)%Z)) (fst (lex_all src)).
Lemma simple_by src : simple_b src = true -> simple_source src.
Proof.
  unfold simple_b, simple_source. intros E. apply Forall_forall. intros t J. rewrite forallb_forall in E. specialize (E _ J). apply andb_prop in E as (A & B). split.
  - intros Q. rewrite Q in A. discriminate A.
  - intros Q M. rewrite Q, M in B. discriminate B.
Qed.
Lemma ans_simple : simple_source ans_src /\ simple_source ans_bad.
Proof. split; apply simple_by; vm_compute; reflexivity. Qed.
Lemma ans_room : enough_room ans_s2 (Some (text_of "a.tiny")) ans_src /\ enough_room ans_s2 (Some (text_of "a.tiny")) ans_bad.
Proof. split; apply Nat.leb_le; vm_compute; reflexivity. Qed.
Lemma ans_fuel : parse_fuel (fst (lex_all ans_src)) <= 2000 /\ parse_fuel (fst (lex_all ans_bad)) <= 2000.
Proof. split; apply Nat.leb_le; vm_compute; reflexivity. Qed.
Example compiler_answers_case : reachable ans_s2 /\ nothing_pending ans_s2 /\
  (simple_source ans_src /\ enough_room ans_s2 (Some (text_of "a.tiny")) ans_src /\ parse_fuel (fst (lex_all ans_src)) <= 2000 /\ no_self_source ans_s2 ans_src /\
   outcome (compile_string 2000 halt_mods (Some (text_of "a.tiny")) ans_src ans_s2) = 0) /\
  (simple_source ans_bad /\ enough_room ans_s2 (Some (text_of "a.tiny")) ans_bad /\ parse_fuel (fst (lex_all ans_bad)) <= 2000 /\ no_self_source ans_s2 ans_bad /\
   outcome (compile_string 2000 halt_mods (Some (text_of "a.tiny")) ans_bad ans_s2) = 1).
Proof.
  pose proof ans_simple. pose proof ans_room. pose proof ans_fuel.
  split; [exact ans_r2|]. split; [exact ans_nothing|]. split.
  - split; [tauto|]. split; [tauto|]. split; [tauto|]. split; [exact ans_no_self|]. vm_compute. reflexivity.
  - split; [tauto|]. split; [tauto|]. split; [tauto|]. split; [exact bad_no_self|]. vm_compute. reflexivity.
Qed.

(** ** What is excluded *)
(** F46: [x := x] *)
Theorem self_declaration_refuted : exists s fuel src, reachable s /\ simple_source src /\ enough_room s None src /\ parse_fuel (fst (lex_all src)) <= fuel /\
  nothing_pending s /\ compile_string fuel halt_mods None src s = CUB.
Proof.
  exists ans_s2, 200, (text_of "x := x"). split; [exact ans_r2|]. split; [apply simple_by; vm_compute; reflexivity|].
  split; [apply Nat.leb_le; vm_compute; reflexivity|]. split; [apply Nat.leb_le; vm_compute; reflexivity|]. split; [exact ans_nothing|]. vm_compute. reflexivity.
Qed.
Definition pend_src : text := text_of "p := new P{ 1 }".
Definition pend_tree : list stmt := Eval vm_compute in match parse_program 200 (start_parse (k_tbl ans_s1) pend_src) with COk ss _ => ss | _ => [] end.
Definition pend_pst : pst := Eval vm_compute in match parse_program 200 (start_parse (k_tbl ans_s1) pend_src) with COk _ p => p | _ => start_parse init_tbl [] end.
(** F71: [new] of a structure that only a bound function has mentioned *)
Theorem pending_structure_refuted : exists s fuel src, reachable s /\ simple_source src /\ enough_room s None src /\ parse_fuel (fst (lex_all src)) <= fuel /\
  no_self_source s src /\ compile_string fuel halt_mods None src s = CAbort.
Proof.
  exists ans_s1, 200, pend_src.
  split; [exact ans_r1|]. split; [apply simple_by; vm_compute; reflexivity|].
  split; [apply Nat.leb_le; vm_compute; reflexivity|]. split; [apply Nat.leb_le; vm_compute; reflexivity|]. split; [|vm_compute; reflexivity].
  apply (one_parse _ _ 200 pend_tree pend_pst); [vm_cast_no_check (eq_refl (@COk pst _ pend_tree pend_pst))|].
  unfold pend_tree. repeat constructor; cbn; intuition discriminate.
Qed.
Print Assumptions self_declaration_refuted.
Print Assumptions pending_structure_refuted.

(** F78: a macro that compiles a source mentioning a variable of the program that
    uses it finds the variable without a type. *)
Definition runs (n : nat) (src : text) : text -> macro := fun _ _ _ s => match compile_string n halt_mods None src s with
  | COk _ s' => COk true s' | CFail s' => CFail s' | CAbort => CAbort | CUB => CUB | CHang => CHang | CFuel => CFuel end.
Lemma runs_steps n src m args as_ x b x' : runs n src m args as_ x = COk b x' -> steps x x'.
Proof.
  unfold runs. destruct (compile_string n halt_mods None src x) as [ts s'| | | | |] eqn:C; try discriminate. intros E. injection E as _ <-.
  eapply st_compile; [|exact C|apply st_refl]. intros. discriminate.
Qed.
Definition peek : text -> macro := runs 200 (text_of "y := x").
Definition ans_m : kst := Eval vm_compute in match host 20 (HMacro (text_of "m")) ans_s0 with COk _ s => s | _ => init_kst end.
Theorem macro_reads_untyped_refuted : exists s, reachable s /\
  (forall m args as_ x b x', peek m args as_ x = COk b x' -> steps x x') /\
  (exists s1, compile_string 200 halt_mods None (text_of "x := 1 use m()") s = CFail s1) /\
  exists s1, host 20 (HMacro (text_of "m")) s = COk tt s1 /\ compile_string 200 peek None (text_of "x := 1 use m()") s1 = CUB.
Proof.
  exists ans_s0. split; [exact ans_r0|]. split; [exact (runs_steps _ _)|].
  split; [eexists; vm_compute; reflexivity|]. exists ans_m. split; vm_compute; reflexivity.
Qed.
Print Assumptions macro_reads_untyped_refuted.
