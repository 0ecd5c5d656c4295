(** * C42: the type checker accepts exactly the programs the typing rules allow *)
From Verif Require Import Base Token Lexer Values Heap Code Syntax VM VMSpec Source Symbols Parser Resolve Layout
  Compile CompileProofs TableInv ParserInv Host LayTable Whole Grammar GrammarStmt Typing TypingProofs TypingExpr TypingStmt
  Props_Compile Props_Stmt Props_Names.
Local Open Scope nat_scope.

(** Assignability, whatever the symbol table: the check the compiler makes
    succeeds for exactly the pairs of types the rules allow. *)
Theorem assignable_by_rules : forall t src dest, check_assignable src dest t = COk tt t <-> assigns t src dest.
Proof. exact assigns_iff. Qed.
Print Assumptions assignable_by_rules.

(** Expressions, whatever the symbol table *)
Theorem expressions_typed_by_rules : forall e t te t', resolve e t = COk te t' <-> t' = t /\ types t e te.
Proof. exact resolve_iff. Qed.
Print Assumptions expressions_typed_by_rules.

(** Statements; the symbols of a state have different identities
    ([symbols_distinct] below) *)
Theorem statements_typed_by_rules : forall s t ts t', NoDup (map sy_id (tb_syms t)) ->
  resolve_stmt s t = COk ts t' <-> well_typed t s ts t'.
Proof. intros s t ts t' U. exact (proj1 (stmt_iff s t ts t' U)). Qed.
Print Assumptions statements_typed_by_rules.
Theorem program_typed_by_rules : forall ss t tss t', NoDup (map sy_id (tb_syms t)) ->
  resolve_all ss t = COk tss t' <-> all_typed t ss tss t'.
Proof. intros ss t tss t' U. exact (proj1 (program_iff ss t tss t' U)). Qed.

(** The rules leave no choice: an expression has at most one type, a program at
    most one reading. *)
Theorem one_type : forall t e te1 te2, types t e te1 -> types t e te2 -> te1 = te2.
Proof.
  intros t e te1 te2 A B. pose proof (proj2 (resolve_iff e t te1 t) (conj eq_refl A)) as E1. pose proof (proj2 (resolve_iff e t te2 t) (conj eq_refl B)) as E2. congruence.
Qed.
Theorem one_reading : forall t ss ts1 t1 ts2 t2, NoDup (map sy_id (tb_syms t)) -> all_typed t ss ts1 t1 -> all_typed t ss ts2 t2 -> ts1 = ts2 /\ t1 = t2.
Proof.
  intros t ss ts1 t1 ts2 t2 U A B. apply program_typed_by_rules in A; [|exact U]. apply program_typed_by_rules in B; [|exact U]. rewrite A in B. injection B as -> ->. auto.
Qed.

(** ** What the rules imply *)

(** F11: if [T] is neither [any] nor itself nullable, a value of type [T?] may not
    be stored in a variable of type [T?]. *)
Theorem nullable_to_itself_refuted : forall t id name inner, denotes t id name (SyNullable inner) -> inner <> GAny ->
  (forall j nm g, inner = GSym j -> ~ denotes t j nm (SyNullable g)) -> ~ assigns t (GSym id) (GSym id).
Proof.
  intros t id name inner D NA NN As.
  assert (K : kind_of t (GSym id) = Some (KNullable inner)) by (apply kind_nullable; eauto).
  inversion As; subst.
  - match goal with H : denotes t id _ (SyStruct _ _) |- _ => assert (Q : kind_of t (GSym id) = Some KStruct) by (apply kind_struct; eauto 10) end. congruence.
  - match goal with H : denotes t id _ SyForeignTag |- _ => assert (Q : kind_of t (GSym id) = Some KForeign) by (apply kind_foreign; eauto 10) end. congruence.
  - match goal with H : denotes t id _ (SyNullable ?i) |- _ => assert (Q : kind_of t (GSym id) = Some (KNullable i)) by (apply kind_nullable; eauto) end.
    rewrite K in Q. injection Q as <-.
    match goal with H : assigns t (GSym id) inner |- _ => inversion H; subst end.
    + contradiction.
    + match goal with H : denotes t id _ (SyStruct _ _) |- _ => assert (Q : kind_of t (GSym id) = Some KStruct) by (apply kind_struct; eauto 10) end. congruence.
    + match goal with H : denotes t id _ SyForeignTag |- _ => assert (Q : kind_of t (GSym id) = Some KForeign) by (apply kind_foreign; eauto 10) end. congruence.
    + eapply NN; [reflexivity|eassumption].
Qed.

(** ** From the text *)
Theorem symbols_distinct : forall s, reachable s -> NoDup (map sy_id (tb_syms (k_tbl s))).
Proof. intros s R. exact (gd_unique _ _ (ld_good _ _ (reachable_loaded _ R))). Qed.

(** A text that compiles spells a program (C39) that is well typed once its [use]
    statements have been carried out, and what is compiled ([ts], which C19 runs)
    is that program with its types. *)
Theorem compiled_is_well_typed : forall fuel mods file src ts s0 s, reachable s0 ->
  (forall m args as_ x b x', mods m args as_ x = COk b x' -> steps x x') ->
  compile_string fuel mods file src s0 = COk ts s ->
  exists a x ss T s1 T', tokens src a x /\ GrammarStmt.program (k_tbl s0) a x ss T /\
    run_uses mods ss (set_tbl s0 T) = COk tt s1 /\ all_typed (k_tbl s1) ss ts T'.
Proof.
  intros fuel mods file src ts s0 s R Hm E. destruct (compile_parts _ _ _ _ _ _ _ E) as (ss & p & s1 & t1 & Ep & U & Er & _).
  destruct (proj1 (programs_by_grammar (k_tbl s0) src ss (ps_tbl p)) (ex_intro _ fuel (ex_intro _ p (conj Ep eq_refl)))) as (a & x & Tk & Pr).
  exists a, x, ss, (ps_tbl p), s1, t1. split; [exact Tk|]. split; [exact Pr|]. split; [exact U|].
  pose proof (reachable_loaded _ R) as L. destruct (program_inv _ _ _ _ _ (ld_func _ _ L) Ep) as (Gr & _).
  assert (Hm' : forall m args as_ x b x', mods m args as_ x = COk b x' -> forall pend, loaded pend x -> loaded pend x')
    by (intros m args as_ y b y' Q pend; exact (steps_loaded _ _ (Hm _ _ _ _ _ _ Q) pend)).
  pose proof (run_uses_inv _ _ Hm' _ _ _ U _ (loaded_tbl _ _ _ _ L Gr)) as L1.
  apply program_typed_by_rules; [exact (gd_unique _ _ (ld_good _ _ L1))|exact Er].
Qed.
Print Assumptions compiled_is_well_typed.

(** ** Cases *)
Example compiled_is_well_typed_case : exists a x ss T s1 T', tokens demo_src a x /\ GrammarStmt.program (k_tbl demo_s1) a x ss T /\
  run_uses (fun _ _ _ _ => CAbort) ss (set_tbl demo_s1 T) = COk tt s1 /\ all_typed (k_tbl s1) ss demo_ts T'.
Proof.
  assert (M : forall (m : text) (args : list text) (as_ : option text) (x : kst) b x', (CAbort : cres kst bool) = COk b x' -> steps x x') by discriminate.
  exact (compiled_is_well_typed 200 (fun _ _ _ _ => CAbort) None demo_src demo_ts demo_s1 demo_state demo_reachable M demo_compiles).
Qed.

(** A table with a struct [P], the nullable [P?], an integer variable, a variable
    of type [P?] and a function from [P] to [P] *)
Definition tP : tbl := mkTbl [
  mkSym 0 (text_of "P") (SyStruct true [mkField (text_of "x") GInt; mkField (text_of "y") GFloat]);
  mkSym 1 (text_of "P?") (SyNullable (GSym 0));
  mkSym 2 (text_of "n") (SyGlobal 0 true (Some GInt));
  mkSym 3 (text_of "q") (SyGlobal 1 true (Some (GSym 1)));
  mkSym 4 (text_of "f") (SyForeign 0 [GSym 0] false (GSym 0) 7);
  mkSym 5 (text_of "P_get_index") (SyForeign 1 [GSym 0; GInt] false GStr 8)] 6 [] 2 0 2 0 None.
Lemma tP_unique : NoDup (map sy_id (tb_syms tP)).
Proof. cbn. repeat (constructor; [cbn; lia|]). constructor. Qed.
Lemma tP_P : denotes tP 0 (text_of "P") (SyStruct true [mkField (text_of "x") GInt; mkField (text_of "y") GFloat]).
Proof. apply denotes_at. reflexivity. Qed.
Lemma tP_PQ : denotes tP 1 (text_of "P?") (SyNullable (GSym 0)).
Proof. apply denotes_at. reflexivity. Qed.

(** [P] goes into [P?], not the other way round; [int] does not go into [float];
    everything but [void] goes into [any]. *)
Example assigns_cases : assigns tP (GSym 0) (GSym 1) /\ ~ assigns tP (GSym 1) (GSym 0) /\ ~ assigns tP (GSym 1) (GSym 1) /\
  ~ assigns tP GInt GFloat /\ assigns tP (GSym 1) GAny /\ ~ assigns tP GVoid GAny /\ ~ assigns tP GAny (GSym 1).
Proof.
  split. { eapply as_nullable; [exact tP_PQ|discriminate|]. eapply as_struct; exact tP_P. }
  split. { intros A. apply assigns_iff in A. discriminate A. }
  split. { apply (nullable_to_itself_refuted _ _ _ _ tP_PQ); [discriminate|]. intros j nm g [= <-] D. apply denotes_at in D. discriminate D. }
  split. { intros A. inversion A. }
  split. { apply as_any; [|discriminate]. eapply ty_nullable. exact tP_PQ. }
  split. { intros A. inversion A; subst; congruence. }
  intros A. inversion A; subst. congruence.
Qed.

(** [f(new P{1, 2.5}).x + n] is an [int]; [f(new P{.y = 2.5})[n] == null] a [bool] *)
Example types_case : exists te, types tP
  (EBin BAdd (EDot (ECall (text_of "f") [ENew 0 [] [EInt 1; EFloat 5]]) (text_of "x")) (EId (text_of "n") (Some (RGlobal 2)))) te /\ tag_of te = GInt.
Proof. eexists. split; [apply resolve_iff with (t' := tP); reflexivity|reflexivity]. Qed.
Example types_index : exists te, types tP
  (EBin BEq (EIndex (ECall (text_of "f") [ENew 0 [text_of "y"] [EFloat 5]]) (EId (text_of "n") (Some (RGlobal 2)))) ENull) te /\ tag_of te = GBool.
Proof. eexists. split; [apply resolve_iff with (t' := tP); reflexivity|reflexivity]. Qed.
(** ... and casts between [int] and [float], a call with a wrong argument or a
    condition that is not a [bool] have no type. *)
Example untyped_cases : (forall te, ~ types tP (ECast (EInt 1) GFloat) te) /\ (forall te, ~ types tP (ECall (text_of "f") [EInt 1]) te) /\
  (forall te, ~ types tP (ETern (EInt 1) (EInt 2) (EInt 3)) te) /\ (forall te, ~ types tP (EDot (EId (text_of "q") (Some (RGlobal 3))) (text_of "x")) te).
Proof.
  split; [|split; [|split]]; intros te T; apply (fun T => proj2 (resolve_iff _ tP te tP) (conj eq_refl T)) in T; discriminate T.
Qed.
(** A declaration gives its variable a type. *)
Example declares_case : exists ts t', well_typed tP (SAsg 1 DECLARE (EId (text_of "q") (Some (RGlobal 3))) (EInt 4)) ts t' /\ var_type t' (RGlobal 3) GInt /\ var_type t' (RGlobal 2) GInt.
Proof.
  eexists _, _. split; [apply statements_typed_by_rules; [exact tP_unique|reflexivity]|]. split; apply var_iff; reflexivity.
Qed.
