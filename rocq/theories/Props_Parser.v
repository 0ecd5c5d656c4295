(** * C15: the parser answers for every source text *)
From Verif Require Import Base Token Lexer LexerSpec Values Syntax Symbols Parser ParserSpec Stream Compile TableInv Host Whole ParserTotal Props_Compile.
Local Open Scope nat_scope.

(** The string literals of a token list; each may take a slot of the string table *)
Definition literals (ts : list token) : nat := length (filter (fun t => tok_eqb (tk t) STRING) ts).

Lemma literals_strs ts : fold_right (fun t n => is_str t + n) 0 ts = literals ts.
Proof.
  induction ts as [|t ts IH]; auto. unfold literals, is_str in *. cbn. rewrite IH. destruct (tok_eqb (tk t) STRING); reflexivity.
Qed.

Lemma start_hang src : let '(ts, e) := lex_all src in e = SHang -> exists g q, src = g ++ ch_dquote :: q /\ ~ closed q.
Proof. pose proof (lex_all_ok src) as X. destruct (lex_all src). apply X. Qed.

Lemma parse_answers t src n : good full t -> tb_func t = None ->
  length (tb_strings t) + literals (fst (lex_all src)) <= 1024 -> parse_fuel (fst (lex_all src)) <= n ->
  match parse_program n (start_parse t src) with
  | COk ss p => snodes_all ss <= length (fst (lex_all src)) /\ snodes_all ss <= length src + 1 /\ tb_func (ps_tbl p) = None
  | CFail _ => True
  | CHang => exists g q, src = g ++ ch_dquote :: q /\ ~ closed q
  | CAbort | CUB | CFuel => False
  end.
Proof.
  intros G F B L. unfold parse_fuel in L. pose proof (lex_all_ok src) as X. unfold start_parse. destruct (lex_all src) as [ts e]. cbn [fst] in *.
  destruct X as (Ch & Hg & Ln).
  set (hang := exists g q, src = g ++ ch_dquote :: q /\ ~ closed q) in *.
  set (s0 := mkPst t ts e (mkTok TEOF 0 1 None false 0 0)).
  assert (I0 : ok hang t s0).
  { split; [|apply grows_refl]. constructor; cbn; auto.
    - left. right. auto.
    - constructor; [apply (gd_unique _ _ G)|apply (gd_next _ _ G)|]. rewrite F. discriminate.
    - unfold strs. cbn. rewrite literals_strs. exact B. }
  assert (R : ParserTotal.ready t) by (intros f E; rewrite F in E; discriminate).
  assert (L0 : left s0 - 1 <= length ts) by (unfold left; cbn; destruct ts; cbn; lia).
  assert (W : wp hang (parse_program n) s0 (fun ss s' => ok hang t s' /\ snodes_all ss <= length ts)).
  { unfold parse_program. apply wp_bind. eapply wp_next; [exact I0|]. intros s1 O1 L1 _ _.
    eapply wp_mono; [apply (top_total hang n t s1 O1 R); lia|]. cbn. intros ss s2 [O2 L2]. split; [exact O2|lia]. }
  unfold wp in W. destruct (parse_program n s0) as [ss p| | | | |]; auto. destruct W as (O & W).
  split; [exact W|]. split; [lia|]. rewrite (ParserTotal.gr_func _ _ (proj2 O)). exact F.
Qed.

(** Whatever a host has compiled and bound before, parsing a source ends: with
    statements that have at most as many tree nodes as the source has tokens, or
    with an error.  The only exception is a source with a string literal that is
    never closed, on which the lexer may go on for ever (C12).  No undefined
    behaviour, no failed assertion: the one limit is the string table, which must
    have room for the literals of the source. *)
Theorem parser_answers : forall s src n, reachable s ->
  length (tb_strings (k_tbl s)) + literals (fst (lex_all src)) <= 1024 ->
  parse_fuel (fst (lex_all src)) <= n ->
  match parse_program n (start_parse (k_tbl s) src) with
  | COk ss p => snodes_all ss <= length (fst (lex_all src)) /\ snodes_all ss <= length src + 1 /\ tb_func (ps_tbl p) = None
  | CFail _ => True
  | CHang => exists g q, src = g ++ ch_dquote :: q /\ ~ closed q
  | CAbort | CUB | CFuel => False
  end.
Proof. intros s src n R B L. pose proof (reachable_loaded _ R) as Ld. apply parse_answers; auto; apply Ld. Qed.
Print Assumptions parser_answers.

Lemma steps_app s s1 : steps s s1 -> forall s2, steps s1 s2 -> steps s s2.
Proof. induction 1; intros s3 T; [exact T|eapply st_host; eauto|eapply st_compile; eauto]. Qed.

(** The hypotheses hold of the state [Props_Compile.demo_state] and this source,
    which parses to ten nodes for its sixteen tokens. *)
Definition some_src : text := text_of "kk := 1 + ""two""->len()->twice() pp := kk".
Definition some_tree : list stmt := Eval vm_compute in
  match parse_program 200 (start_parse (k_tbl demo_state) some_src) with COk ss _ => ss | _ => [] end.
Definition some_pst : pst := Eval vm_compute in
  match parse_program 200 (start_parse (k_tbl demo_state) some_src) with COk _ p => p | _ => start_parse init_tbl [] end.
Example parser_answers_case : reachable demo_state /\
  length (tb_strings (k_tbl demo_state)) + literals (fst (lex_all some_src)) <= 1024 /\ parse_fuel (fst (lex_all some_src)) <= 200 /\
  length (fst (lex_all some_src)) = 16 /\ snodes_all some_tree = 10 /\
  parse_program 200 (start_parse (k_tbl demo_state) some_src) = COk some_tree some_pst.
Proof.
  split; [|split; [|split; [|split; [|split]]]].
  - destruct demo_ready as (n & mods & file & src & ts & s0 & (s1 & E1 & St) & Hm & E & _). exists s1. split; [exact E1|].
    eapply steps_app; [exact St|]. eapply st_compile; [exact Hm|exact E|apply st_refl].
  - apply Nat.leb_le. vm_compute. reflexivity.
  - apply Nat.leb_le. vm_compute. reflexivity.
  - vm_compute. reflexivity.
  - vm_compute. reflexivity.
  - vm_cast_no_check (eq_refl (@COk pst _ some_tree some_pst)).
Qed.

(** A string literal that is never closed: the parser does not answer. *)
Example parser_hangs : parse_program 200 (start_parse init_tbl (text_of "x := ""abc")) = CHang.
Proof. vm_compute. reflexivity. Qed.
