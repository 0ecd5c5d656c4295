(** * C14: expressions group as the precedence table says *)
From Verif Require Import Base Token Lexer Values Syntax Symbols Parser Grammar GrammarProofs GrammarSound.
Local Open Scope nat_scope.

(** The parser, given enough recursion, reads the expression [e] and stops at
    [s'] if and only if the tokens in between spell [e] in the grammar of
    Grammar.v and the token after them cannot continue it.  The grammar makes
    all operators left-associative, with * / % & | over << >> + - over the
    comparisons over && ||. *)
Theorem expressions_by_grammar : forall s e s',
  (exists n, parse_expr n s = COk e s') <->
  (exists a, eats s a s' /\ spells 0 (ps_tbl s) a e (ps_tbl s') /\ stops e (tk (ps_tok s'))).
Proof.
  intros s e s'. split.
  - intros (n & H). exact (so_expr n (exprs_sound n) s e s' H).
  - intros (a & E & Sp & St). destruct complete as (C & _).
    destruct (expr_of _ _ _ _ s s' (C _ _ _ _ _ Sp) E eq_refl eq_refl St) as (n & H). exists n. apply H. auto.
Qed.
Print Assumptions expressions_by_grammar.

(** More recursion does not change what was read *)
Theorem expression_fuel : forall n m s e s', parse_expr n s = COk e s' -> n <= m -> parse_expr m s = COk e s'.
Proof. intros n m s e s' H L. destruct (gn_expr _ _ (exprs_grow n m L) s); congruence. Qed.

(** So the tokens determine the tree: two spellings of the same tokens, followed
    by the same token, are one. *)
Theorem expression_unambiguous : forall T a e1 T1 e2 T2 k, spells 0 T a e1 T1 -> spells 0 T a e2 T2 -> stops e1 k -> stops e2 k -> e1 = e2 /\ T1 = T2.
Proof.
  intros T a e1 T1 e2 T2 k S1 S2 K1 K2.
  assert (X : exists s, ps_tbl s = T /\ forall T', exists s', eats s a s' /\ ps_tbl s' = T' /\ tk (ps_tok s') = k /\ forall s2, eats s a s2 -> ps_tbl s2 = T' -> s2 = s').
  { clear. pose (x := mkTok k 0 1 None false 0 0). assert (G : forall a T, exists s, ps_tbl s = T /\ ps_end s = SHang /\ ps_tok s :: ps_toks s = a ++ [x]).
    { intros [|t a0] T'; [exists (mkPst T' [] SHang x)|exists (mkPst T' (a0 ++ [x]) SHang t)]; auto. }
    destruct (G a T) as (s & Et & Ee & Es). exists s. split; auto. clear G Et. revert s Ee Es. induction a as [|t a IH]; intros s Ee Es T'.
    - exists (retbl s T'). cbn in Es. injection Es as Ex _. split; [constructor|]. split; [reflexivity|]. split; [cbn; rewrite Ex; reflexivity|].
      intros s2 E2 <-. apply eats_none in E2. exact E2.
    - cbn in Es. injection Es as Ex Er. destruct (ps_toks s) as [|t1 r] eqn:Er1; [destruct a; discriminate Er|].
      assert (N : next_token s = COk tt (mkPst (ps_tbl s) r (ps_end s) t1)) by (unfold next_token; rewrite Er1; reflexivity).
      destruct (IH (mkPst (ps_tbl s) r (ps_end s) t1) Ee Er T') as (s' & A & B & C & D). exists s'. split; [rewrite <- Ex; econstructor; eauto|].
      split; auto. split; auto. intros s2 E2 T2. inversion E2 as [|? s1 ? ? N1 E3]; subst. rewrite N in N1. injection N1 as <-. auto. }
  destruct X as (s & Et & X). destruct (X T1) as (s1 & A1 & B1 & C1 & _). destruct (X T2) as (s2 & A2 & B2 & C2 & _).
  assert (P1 : exists n, parse_expr n s = COk e1 s1). { apply expressions_by_grammar. exists a. rewrite Et, B1, C1. auto. }
  assert (P2 : exists n, parse_expr n s = COk e2 s2). { apply expressions_by_grammar. exists a. rewrite Et, B2, C2. auto. }
  destruct P1 as (n1 & P1), P2 as (n2 & P2). apply (expression_fuel _ (n1 + n2)) in P1; [|lia]. apply (expression_fuel _ (n1 + n2)) in P2; [|lia].
  rewrite P1 in P2. injection P2 as -> <-. split; congruence.
Qed.

(** Two operators in a row: [a o1 b o2 c] groups to the left unless the second
    operator binds tighter. *)
Theorem two_operators : forall s s' T1 T2 a l o1 t1 b m o2 t2 c r,
  spells 7 (ps_tbl s) a l T1 -> spells 7 T1 b m T2 -> spells 7 T2 c r (ps_tbl s') ->
  tk t1 = bop_token o1 -> tk t2 = bop_token o2 ->
  eats s (a ++ t1 :: b ++ t2 :: c) s' -> stops r (tk (ps_tok s')) ->
  exists n0, forall n, n0 <= n -> parse_expr n s =
    COk (if strength o1 <? strength o2 then EBin o1 l (EBin o2 m r) else EBin o2 (EBin o1 l m) r) s'.
Proof.
  intros s s' T1 T2 a l o1 t1 b m o2 t2 c r Sa Sb Sc K1 K2 E St.
  assert (H : exists n, parse_expr n s = COk (if strength o1 <? strength o2 then EBin o1 l (EBin o2 m r) else EBin o2 (EBin o1 l m) r) s').
  2:{ destruct H as (n0 & H). exists n0. intros n L. eapply expression_fuel; eauto. }
  apply expressions_by_grammar. exists (a ++ t1 :: b ++ t2 :: c). split; [exact E|].
  pose proof (low_open _ _ _ _ _ Sa eq_refl). pose proof (low_open _ _ _ _ _ Sb eq_refl). pose proof (strength_range o1). pose proof (strength_range o2).
  destruct (Nat.ltb_spec (strength o1) (strength o2)).
  - split; [|exact St]. eapply (ups 0 (strength o1)); [lia|lia|]. eapply sp_bin; eauto.
    + eapply ups; [| |exact Sa]; lia.
    + apply (ups _ (strength o2)); [lia|lia|]. eapply sp_bin; eauto; eapply ups; [| |eassumption| | |eassumption]; lia.
  - split; [|exact St]. eapply (ups 0 (strength o2)); [lia|lia|]. change (a ++ t1 :: b ++ t2 :: c) with (a ++ (t1 :: b) ++ t2 :: c). rewrite app_assoc.
    eapply sp_bin; [exact H0| |exact K2|].
    + apply (ups _ (strength o1)); [lia|lia|]. eapply sp_bin; eauto; eapply ups; [| |eassumption| | |eassumption]; lia.
    + eapply ups; [| |eassumption]; lia.
Qed.
Print Assumptions two_operators.

(** Parentheses override: [(a o1 b) o2 c] and [a o1 (b o2 c)] group as written. *)
Theorem parentheses_override : forall s s' T1 T2 a l o1 t1 b m o2 t2 c r op cl,
  spells 7 (ps_tbl s) a l T1 -> spells 7 T1 b m T2 -> spells 7 T2 c r (ps_tbl s') ->
  tk t1 = bop_token o1 -> tk t2 = bop_token o2 -> tk op = OPENPAREN -> tk cl = CLOSEPAREN -> ~ is_suffix (tk (ps_tok s')) -> ~ is_bop (tk (ps_tok s')) -> no_call r (tk (ps_tok s')) ->
  (eats s (op :: (a ++ t1 :: b) ++ [cl] ++ t2 :: c) s' -> exists n0, forall n, n0 <= n -> parse_expr n s = COk (EBin o2 (EParen (EBin o1 l m)) r) s') /\
  (eats s (a ++ t1 :: op :: (b ++ t2 :: c) ++ [cl]) s' -> exists n0, forall n, n0 <= n -> parse_expr n s = COk (EBin o1 l (EParen (EBin o2 m r))) s').
Proof.
  intros s s' T1 T2 a l o1 t1 b m o2 t2 c r op cl Sa Sb Sc K1 K2 Ko Kc N1 N2 N3.
  pose proof (low_open _ _ _ _ _ Sa eq_refl). pose proof (low_open _ _ _ _ _ Sb eq_refl). pose proof (strength_range o1). pose proof (strength_range o2).
  assert (U : forall p T a e T', p <= 7 -> spells 7 T a e T' -> spells p T a e T') by (intros; eapply ups; [| |eassumption]; lia).
  split; intros E.
  - assert (X : exists n, parse_expr n s = COk (EBin o2 (EParen (EBin o1 l m)) r) s').
    { apply expressions_by_grammar. eexists. split; [exact E|]. split; [|repeat split; auto].
      apply (ups 0 (strength o2)); [lia|lia|]. rewrite app_assoc, app_comm_cons. eapply sp_bin; [reflexivity| |exact K2|apply U; [lia|eassumption]].
      apply U; [lia|]. eapply sp_paren; eauto. apply (ups 0 (strength o1)); [lia|lia|]. eapply sp_bin; eauto; apply U; eauto; lia. }
    destruct X as (n0 & X). exists n0. intros n L. eapply expression_fuel; eauto.
  - assert (X : exists n, parse_expr n s = COk (EBin o1 l (EParen (EBin o2 m r))) s').
    { apply expressions_by_grammar. eexists. split; [exact E|]. split; [|repeat split; auto; intros ?; discriminate].
      apply (ups 0 (strength o1)); [lia|lia|]. eapply sp_bin; [exact H|apply U; [lia|eassumption]|exact K1|].
      apply U; [lia|]. eapply sp_paren; eauto. apply (ups 0 (strength o2)); [lia|lia|]. eapply sp_bin; eauto; apply U; eauto; lia. }
    destruct X as (n0 & X). exists n0. intros n L. eapply expression_fuel; eauto.
Qed.

(** Concrete cases: the hypotheses hold of real source text. *)
Definition first (src : text) : pst := match next_token (start_parse init_tbl src) with COk _ s => s | _ => start_parse init_tbl src end.
Definition reads (src : string) : option expr := match parse_expr 60 (first (text_of src)) with COk e _ => Some e | _ => None end.
Example grammar_cases :
  reads "1 + 2 * 3" = Some (EBin BAdd (EInt 1) (EBin BMul (EInt 2) (EInt 3))) /\
  reads "1 * 2 + 3" = Some (EBin BAdd (EBin BMul (EInt 1) (EInt 2)) (EInt 3)) /\
  reads "1 - 2 - 3" = Some (EBin BSub (EBin BSub (EInt 1) (EInt 2)) (EInt 3)) /\
  reads "1 - (2 - 3)" = Some (EBin BSub (EInt 1) (EParen (EBin BSub (EInt 2) (EInt 3)))) /\
  reads "1 < 2 && 3 << 4 == 5" = Some (EBin BLand (EBin BLt (EInt 1) (EInt 2)) (EBin BEq (EBin BShl (EInt 3) (EInt 4)) (EInt 5))) /\
  reads "if true 1 else 2 + 3" = Some (ETern (EBool true) (EInt 1) (EBin BAdd (EInt 2) (EInt 3))) /\
  reads "- 1 + 2" = Some (EBin BAdd (EUn UMinus (EInt 1)) (EInt 2)).
Proof. vm_compute. repeat split. Qed.
Definition num (z : Z) : token := mkTok INT 0 1 (Some (text_of "n")) false z 0.
Definition sym (k : tokkind) : token := mkTok k 0 1 (Some (text_of "s")) false 0 0.
Example two_operators_case : exists s s', spells 7 (ps_tbl s) [num 1] (EInt 1) init_tbl /\ spells 7 init_tbl [num 2] (EInt 2) init_tbl /\ spells 7 init_tbl [num 3] (EInt 3) (ps_tbl s') /\
  eats s ([num 1] ++ sym (bop_token BSub) :: [num 2] ++ sym (bop_token BMul) :: [num 3]) s' /\ stops (EInt 3) (tk (ps_tok s')).
Proof.
  exists (mkPst init_tbl [sym MINUS; num 2; sym STAR; num 3] (SRepeat (sym TEOF)) (num 1)), (mkPst init_tbl [] (SRepeat (sym TEOF)) (sym TEOF)). cbn [ps_tbl].
  split; [apply (sp_int init_tbl (num 1)); reflexivity|]. split; [apply (sp_int init_tbl (num 2)); reflexivity|]. split; [apply (sp_int init_tbl (num 3)); reflexivity|]. split.
  - cbn [app]. do 5 (match goal with |- eats ?s (?x :: ?r) _ => change x with (ps_tok s); eapply eats_cons; [reflexivity|] end). apply eats_refl.
  - split; [intros [X|[X|X]]; discriminate X|]. split; [intros ([] & X); discriminate X|]. intros X. discriminate X.
Qed.
