(** * C39: statements and declarations are read as the grammar says *)
From Verif Require Import Base Token Lexer LexerSpec Values Syntax Symbols TableInv Parser ParserSpec Stream Compile Host Whole ParserTotal
  Grammar GrammarProofs GrammarSound GrammarStmt GrammarStmtSound GrammarStmtComplete GrammarEnds Props_Compile Props_Parser.
Local Open Scope nat_scope.

(** ** More recursion does not change what was read *)
Ltac ls1 := repeat first [assumption
  |match goal with |- less (cbind ?a _) (cbind ?a _) => apply less_bind; [apply less_refl|intro] | |- less (cbind _ _) (cbind _ _) => apply less_bind; [|intro]
   | |- less (match ?x with _ => _ end) (match ?x with _ => _ end) => destruct x | |- less ?a ?a => apply less_refl | H : forall _, _ |- _ => apply H end].
Lemma params_grow n : forall m, n <= m -> less (parse_params n) (parse_params m).
Proof. induction n as [|n IH]; intros m L; [apply less_fuel|]. destruct m as [|m]; [lia|]. specialize (IH m ltac:(lia)). cbn [parse_params]. ls. Qed.
Lemma use_args_grow n : forall m, n <= m -> less (parse_use_args n) (parse_use_args m).
Proof. induction n as [|n IH]; intros m L; [apply less_fuel|]. destruct m as [|m]; [lia|]. specialize (IH m ltac:(lia)). cbn [parse_use_args]. ls. Qed.
Lemma fields_grow id n : forall m, n <= m -> less (parse_fields n id) (parse_fields m id).
Proof. induction n as [|n IH]; intros m L; [apply less_fuel|]. destruct m as [|m]; [lia|]. specialize (IH m ltac:(lia)). cbn [parse_fields]. ls. Qed.
Lemma simple_grow n m : n <= m -> less (parse_simple n) (parse_simple m).
Proof. intros L. destruct (exprs_grow n m L) as [He Hf _ _ _ _ _ _ _]. unfold parse_simple. ls. Qed.
Lemma stmts_grow n : forall m, n <= m -> less (parse_stmt n) (parse_stmt m) /\ less (parse_block n) (parse_block m).
Proof.
  induction n as [|n IH]; intros m L; [split; apply less_fuel|]. destruct m as [|m]; [lia|]. destruct (IH m ltac:(lia)) as (Hs & Hb).
  assert (He : less (parse_expr n) (parse_expr m)) by (apply exprs_grow; lia). assert (Hp := params_grow n m ltac:(lia)). assert (Hu := use_args_grow n m ltac:(lia)). assert (Hm := simple_grow n m ltac:(lia)).
  assert (HU : forall z, less (parse_use n z) (parse_use m z)) by (intros z; unfold parse_use; ls).
  clear IH L. split; cbn [parse_stmt parse_block]; ls1.
Qed.
Lemma top_grow n : forall m, n <= m -> less (parse_top n) (parse_top m).
Proof.
  induction n as [|n IH]; intros m L; [apply less_fuel|]. destruct m as [|m]; [lia|]. specialize (IH m ltac:(lia)).
  assert (Hs := proj1 (stmts_grow n m ltac:(lia))). assert (Hf := fun id => fields_grow id n m ltac:(lia)).
  assert (Hr : less (parse_struct n) (parse_struct m)) by (unfold parse_struct; ls). clear L. cbn [parse_top]. ls1.
Qed.

(** ** The tokens of a source *)
Lemma stream_no_eof : forall fuel l, Forall (fun t => tk t <> TEOF) (fst (lex_stream fuel l)).
Proof.
  induction fuel as [|n IH]; intros l; cbn [lex_stream]; [constructor|]. destruct (get_token l) as [k l'|]; [|constructor].
  specialize (IH l'). destruct (lex_stream n l') as [ts e]. cbn [fst] in IH.
  destruct k; try (constructor; [discriminate|exact IH]); try constructor. destruct (lex_moved l l'); constructor; [discriminate|exact IH].
Qed.

(** A parser at the beginning of the tokens [a] *)
Definition at_start (t : tbl) (a : list token) (e : stream_end) (s : pst) : Prop :=
  ps_tbl s = t /\ ps_end s = e /\ ps_toks s = tl a /\ match a with y :: _ => ps_tok s = y | [] => match e with SRepeat x => ps_tok s = x | _ => False end end.
Lemma starts_at t src u s : next_token (start_parse t src) = COk u s -> at_start t (fst (lex_all src)) (snd (lex_all src)) s.
Proof.
  unfold start_parse, next_token, at_start. destruct (lex_all src) as [[|y a] e]; cbn.
  - destruct e; try discriminate. intros [= <- <-]. auto.
  - intros [= <- <-]. auto.
Qed.
Lemma eats_all : forall a t x s T', at_start t a (SRepeat x) s -> eats s a (mkPst T' [] (SRepeat x) x).
Proof.
  induction a as [|y a IH]; intros t x s T' (A & B & C & D); cbn in *.
  - destruct s as [t0 ts e0 k]. cbn in *. subst. apply (eats_nil (mkPst t [] (SRepeat x) x) T').
  - destruct s as [t0 ts e0 k]. cbn in *. subst. destruct a as [|z a].
    + cbn. apply (eats_cons (mkPst t [] (SRepeat x) y) (mkPst t [] (SRepeat x) x)); [reflexivity|]. apply (eats_nil (mkPst t [] (SRepeat x) x) T').
    + apply (eats_cons (mkPst t (z :: a) (SRepeat x) y) (mkPst t a (SRepeat x) z)); [reflexivity|]. apply (IH t). repeat split; auto.
Qed.
Lemma last_nonempty {A} (l : list A) : l <> [] -> exists b t, l = b ++ [t].
Proof. destruct (rev l) eqn:R; [intros N; destruct N; rewrite <- (rev_involutive l), R; auto|]. intros _. exists (rev l0), a. rewrite <- (rev_involutive l), R. reflexivity. Qed.
Lemma eats_repeat : forall a s s' x, ps_toks s = [] -> ps_end s = SRepeat x -> ps_tok s = x -> eats s a s' -> Forall (fun t => t = x) a.
Proof.
  induction a as [|y a IH]; intros s s' x A B C E; constructor.
  - rewrite <- C. symmetry. exact (eats_hd _ _ _ _ E).
  - apply eats_one in E as (s1 & _ & N & E & _). unfold next_token in N. rewrite A, B in N. injection N as <-. eapply IH; [| | |exact E]; reflexivity.
Qed.
Lemma eats_whole : forall a ts t e s s', at_start t ts e s -> Forall (fun k => tk k <> TEOF) ts -> eats s a s' -> tk (ps_tok s') = TEOF -> lne a ->
  a = ts /\ e = SRepeat (ps_tok s').
Proof.
  induction a as [|y a IH]; intros ts t e s s' (A & B & C & D) F E K L.
  - apply eats_none in E. assert (Q : ps_tok s' = ps_tok s) by (rewrite E; reflexivity). rewrite Q in *. destruct ts as [|z ts].
    + destruct e; try contradiction. subst. auto.
    + inversion F; subst. congruence.
  - destruct ts as [|z ts].
    + destruct e as [x| |]; try contradiction. pose proof (eats_repeat _ _ _ _ C B D E) as R. destruct (last_nonempty (y :: a)) as (b & u & Q); [discriminate|].
      exfalso. apply (L b u Q). rewrite Q in R. apply Forall_app in R as (_ & R). inversion R as [|? ? Eu _]. subst u.
      assert (Z : ps_tok s' = x); [|rewrite <- Z; exact K]. clear - C B D E. remember (y :: a) as l. clear Heql. revert s C B D E. induction l as [|w l IH]; intros s C B D E.
      * apply eats_none in E. rewrite E. auto.
      * apply eats_one in E as (s1 & _ & N & E & _). unfold next_token in N. cbn in C. rewrite C, B in N. injection N as <-. eapply IH; [| | |exact E]; reflexivity.
    + pose proof (eats_hd _ _ _ _ E) as Hy. rewrite D in Hy. subst y. inversion F; subst. apply eats_one in E as (s1 & _ & N & E & T1).
      assert (S1 : at_start (ps_tbl s) ts (ps_end s) s1).
      { unfold next_token in N. cbn in C. rewrite C in N. destruct ts as [|w ts]; cbn in *.
        - destruct (ps_end s) eqn:Ee; try discriminate N. injection N as <-. repeat split.
        - injection N as <-. repeat split. }
      destruct (IH _ _ _ _ _ S1 ltac:(assumption) E K) as (-> & Q); [|auto].
      intros b u Q. subst a. apply (L (ps_tok s :: b) u). reflexivity.
Qed.

(** The source [src] has the tokens [a]; [x] is the end of the file. *)
Definition tokens (src : text) (a : list token) (x : token) : Prop := lex_all src = (a, SRepeat x).

(** The parser, given enough recursion, turns a source into the statements [ss]
    and the symbol table [T'] if and only if the tokens of the source spell the
    program [ss] in the grammar of GrammarStmt.v. *)
Theorem programs_by_grammar : forall t src ss T',
  (exists n s', parse_program n (start_parse t src) = COk ss s' /\ ps_tbl s' = T') <->
  (exists a x, tokens src a x /\ program t a x ss T').
Proof.
  intros t src ss T'. split.
  - intros (n & s' & H & <-). unfold parse_program in H. apply bind_ok in H as (u & s1 & N & H). apply starts_at in N.
    apply top_sound in H as (a & E & P). assert (K : tk (ps_tok s') = TEOF) by (clear - P; remember (ps_tok s') as x; clear Heqx; induction P; auto).
    pose proof N as (Tb & _). rewrite Tb in P.
    destruct (eats_whole _ _ _ _ _ _ N (stream_no_eof _ _) E K (lne_program _ _ _ _ _ P)) as (-> & Q).
    exists (fst (lex_all src)), (ps_tok s'). split; [|exact P]. unfold tokens. rewrite <- Q. destruct (lex_all src); reflexivity.
  - intros (a & x & Tk & P). unfold tokens in Tk.
    assert (N : exists s1, next_token (start_parse t src) = COk tt s1 /\ at_start t a (SRepeat x) s1).
    { unfold start_parse, next_token, at_start. rewrite Tk. destruct a; cbn; eexists; repeat split. }
    destruct N as (s1 & N & S1). destruct (top_complete _ _ _ _ _ P _ _ (eats_all _ _ _ _ T' S1) (proj1 S1) eq_refl eq_refl) as (n & H).
    exists n, (mkPst T' [] (SRepeat x) x). split; [|reflexivity]. unfold parse_program, cbind. rewrite N. apply H. auto.
Qed.
Print Assumptions programs_by_grammar.

(** More recursion does not change the answer. *)
Theorem program_fuel : forall n m t src ss s', parse_program n (start_parse t src) = COk ss s' -> n <= m -> parse_program m (start_parse t src) = COk ss s'.
Proof.
  intros n m t src ss s' H L. assert (G : less (parse_program n) (parse_program m)) by (apply less_bind; [apply less_refl|intros _; apply top_grow; auto]).
  destruct (G (start_parse t src)); congruence.
Qed.

(** The tokens determine the program. *)
Theorem program_unambiguous : forall t a x ss1 T1 ss2 T2, program t a x ss1 T1 -> program t a x ss2 T2 -> ss1 = ss2 /\ T1 = T2.
Proof.
  intros t a x ss1 T1 ss2 T2 P1 P2.
  assert (S1 : exists s1, at_start t a (SRepeat x) s1).
  { destruct a as [|y a]; [exists (mkPst t [] (SRepeat x) x)|exists (mkPst t a (SRepeat x) y)]; repeat split. }
  destruct S1 as (s1 & S1). destruct (top_complete _ _ _ _ _ P1 _ _ (eats_all _ _ _ _ T1 S1) (proj1 S1) eq_refl eq_refl) as (n1 & H1).
  destruct (top_complete _ _ _ _ _ P2 _ _ (eats_all _ _ _ _ T2 S1) (proj1 S1) eq_refl eq_refl) as (n2 & H2).
  specialize (H1 (n1 + n2) ltac:(lia)). specialize (H2 (n1 + n2) ltac:(lia)). rewrite H1 in H2. injection H2 as -> ->. auto.
Qed.
Theorem sentence_unambiguous : forall T a x st1 T1 st2 T2, sentence T a x st1 T1 -> sentence T a x st2 T2 -> st1 = st2 /\ T1 = T2.
Proof.
  intros t a x ss1 T1 ss2 T2 P1 P2.
  assert (S1 : exists s1, at_start t a (SRepeat x) s1).
  { destruct a as [|y a]; [exists (mkPst t [] (SRepeat x) x)|exists (mkPst t a (SRepeat x) y)]; repeat split. }
  destruct S1 as (s1 & S1). destruct (proj1 stmts_complete _ _ _ _ _ P1 _ _ (eats_all _ _ _ _ T1 S1) (proj1 S1) eq_refl eq_refl) as (n1 & H1).
  destruct (proj1 stmts_complete _ _ _ _ _ P2 _ _ (eats_all _ _ _ _ T2 S1) (proj1 S1) eq_refl eq_refl) as (n2 & H2).
  specialize (H1 (n1 + n2) ltac:(lia)). specialize (H2 (n1 + n2) ltac:(lia)). rewrite H1 in H2. injection H2 as -> ->. auto.
Qed.

(** [if a if b s1 else s2]: the [else] belongs to the inner [if], whatever the
    statements are. *)
Theorem dangling_else : forall T i a e T1 j b c T2 d st1 T3 l f st2 T' x st T'',
  tk i = IF -> spells 0 T a e T1 -> stops e IF ->
  tk j = IF -> spells 0 T1 b c T2 -> stops c (tk (ahead d l)) ->
  sentence T2 d l st1 T3 -> tk l = ELSE -> sentence T3 f x st2 T' -> tk x <> ELSE ->
  sentence T (i :: a ++ j :: b ++ d ++ l :: f) x st T'' ->
  st = SIf (tk_line i) e (SIf (tk_line j) c st1 (Some st2)) None.
Proof.
  intros T i a e T1 j b c T2 d st1 T3 l f st2 T' x st T'' Ki Sa Se Kj Sb Sc Sd Kl Sf Nx H.
  assert (G : sentence T (i :: a ++ (j :: b ++ d ++ l :: f)) x (SIf (tk_line i) e (SIf (tk_line j) c st1 (Some st2)) None) T').
  { eapply se_if; [exact Ki|exact Sa|cbn [ahead hd]; rewrite Kj; exact Se| |exact Nx]. eapply se_if_else; eauto. }
  exact (proj1 (sentence_unambiguous _ _ _ _ _ _ _ H G)).
Qed.

(** The statement of C15 and C39 together: what the host gets for any source, in
    any state it can reach, with room in the string table and recursion for the
    number of tokens. *)
Theorem source_to_program : forall s src n ss T', reachable s ->
  length (tb_strings (k_tbl s)) + literals (fst (lex_all src)) <= 1024 -> parse_fuel (fst (lex_all src)) <= n ->
  (exists s', parse_program n (start_parse (k_tbl s) src) = COk ss s' /\ ps_tbl s' = T') <->
  (exists a x, tokens src a x /\ program (k_tbl s) a x ss T').
Proof.
  intros s src n ss T' R B L. split.
  - intros (s' & H & Q). apply programs_by_grammar. eauto.
  - intros G. apply programs_by_grammar in G as (m & s' & H & Q). exists s'. split; [|exact Q].
    pose proof (parser_answers s src n R B L) as A. destruct (Nat.le_ge_cases m n) as [Lm|Lm]; [exact (program_fuel _ _ _ _ _ _ H Lm)|].
    assert (X : less (parse_program n) (parse_program m)) by (apply less_bind; [apply less_refl|intros _; apply top_grow; auto]).
    destruct (X (start_parse (k_tbl s) src)) as [F|F]; [rewrite F in A; contradiction|congruence].
Qed.
Print Assumptions source_to_program.

(** ** A program with a structure, a function, loops and both kinds of [if] *)
Definition stmt_src : text := text_of "
struct P { x: int y: any }
LIMIT :: 7
func f(n: int, p: P): int {
  s := 0
  for i := 0; i < n; i += 1 { if i == 3 continue if i > LIMIT break else s = s + i }
  while s > 100 { s -= 1 }
  p.x = s
  if n < 0 return 0
  return s
}
q: P = new P{.x = 1, .y = null}
f(5, q)
".
Definition stmt_tree : list stmt := Eval vm_compute in match parse_program 600 (start_parse init_tbl stmt_src) with COk ss _ => ss | _ => [] end.
Definition stmt_pst : pst := Eval vm_compute in match parse_program 600 (start_parse init_tbl stmt_src) with COk _ p => p | _ => start_parse init_tbl [] end.
Example stmt_case : length stmt_tree = 4 /\ exists a x, tokens stmt_src a x /\ program init_tbl a x stmt_tree (ps_tbl stmt_pst).
Proof.
  split; [reflexivity|]. apply programs_by_grammar. exists 600, stmt_pst. split; [|reflexivity].
  vm_cast_no_check (eq_refl (@COk pst _ stmt_tree stmt_pst)).
Qed.
