(** * C51: calling a function through its number *)
From Verif Require Import Base Token Lexer Values ValuesSpec Heap Code Syntax VM VMSpec Source Symbols Parser Host LayTable SimExpr Compile CompileProofs Whole LexerWords
  Std StdSpec StdProofs I64 StdBind LibrarySpec LibScript Props_Compile Props_Names Props_Library Props_Libraries.
Local Open Scope Z_scope.

(** The program's name [name] means the library's function [fn] *)
Definition means {H} (s : kst) (callees : nat -> list value -> fprog H) (y : sym) (fn : list value -> fprog H) : Prop :=
  exists i gs va g c, sy_body y = SyForeign i gs va g c /\ callees c = fn.

(** [get_function_index] of the name of a function of the program gives its number,
    and [call_function] of the number with arguments does what calling the function
    by its name with them does *)
Theorem call_by_number : forall {H} s (callees : nat -> list value -> fprog H) gi cf name v y i params locals ret, ready s ->
  means s callees gi (std_get_function_index (get_function_index s)) -> means s callees cf std_call_function ->
  reference_function (k_tbl s) name = Some y -> sy_body y = SyFunc i params locals ret -> Z.of_nat i < 2^31 -> nul_free name ->
  let P := program_of s callees in
  forall n d h st args, text_of_value (s_heap st) v name -> (h + length args <= p_room P)%nat ->
    Source.call_sym P (enter_fn P n) d h gi [v] st = Ok (VInt (Z.of_nat i), st) /\
    Source.call_sym P (enter_fn P n) d h cf (VInt (Z.of_nat i) :: args) st = Source.call_sym P (enter_fn P n) d (h + length args) y args st.
Proof.
  intros H s callees gi cf name v y i params locals ret R (ia & ga & va & ra & ca & Bi & Ci) (ic & gc & vc & rc & cc & Bc & Cc) F B Li Nn P n d h st args T Le.
  destruct (call_by_name s callees name y i params locals ret R F B) as (G & K). split.
  - unfold Source.call_sym at 1. rewrite Bi. change (p_callee P) with callees. rewrite Ci. unfold std_get_function_index. cbn [length Nat.eqb arg nth_error].
    assert (E : forall k : option text -> fprog H, run_foreign P (call_back P (enter_fn P n) d) h (with_chars v k) st = run_foreign P (call_back P (enter_fn P n) d) h (k (Some name)) st).
    { intros k. destruct T as [x|id m x Hg]; [reflexivity|]. cbn [with_chars run_foreign ref_of]. rewrite Hg. reflexivity. }
    rewrite E, until_nul_free by exact Nn. cbn [run_foreign]. rewrite G. unfold new_int. rewrite wrap32_id by lia. reflexivity.
  - unfold Source.call_sym at 1. rewrite Bc. change (p_callee P) with callees. rewrite Cc. unfold std_call_function. cbn [to_int].
    rewrite wrap32_id by lia. cbn [run_foreign]. specialize (K n d h args st Le). cbv zeta in K. fold P in K. rewrite G in K. rewrite K.
    destruct (Source.call_sym P (enter_fn P n) d (h + length args) y args st) as [[r st']| | |]; reflexivity.
Qed.
Print Assumptions call_by_number.

(** A name no function of the program has, a foreign function's say, has the number
    -1, and calling that fails *)
Theorem call_of_no_function_aborts : forall {H} s (callees : nat -> list value -> fprog H) gi cf name v, ready s ->
  means s callees gi (std_get_function_index (get_function_index s)) -> means s callees cf std_call_function ->
  (forall y, In y (tb_syms (k_tbl s)) -> ~ is_tiny name y) -> nul_free name ->
  let P := program_of s callees in
  forall n d h st args, text_of_value (s_heap st) v name ->
    Source.call_sym P (enter_fn P n) d h gi [v] st = Ok (VInt (-1), st) /\
    Source.call_sym P (enter_fn P n) d h cf (VInt (-1) :: args) st = Abort.
Proof.
  intros H s callees gi cf name v R (ia & ga & va & ra & ca & Bi & Ci) (ic & gc & vc & rc & cc & Bc & Cc) N Nn P n d h st args T.
  assert (G : get_function_index s name = -1).
  { destruct (function_lookup s name R) as [(G & _)|(y & i & p & l & r & b & _ & I & Ny & B & _)]; [exact G|]. exfalso. apply (N y I). split; [exact Ny|]. eauto. }
  split.
  - unfold Source.call_sym at 1. rewrite Bi. change (p_callee P) with callees. rewrite Ci. unfold std_get_function_index. cbn [length Nat.eqb arg nth_error].
    assert (E : forall k : option text -> fprog H, run_foreign P (call_back P (enter_fn P n) d) h (with_chars v k) st = run_foreign P (call_back P (enter_fn P n) d) h (k (Some name)) st).
    { intros k. destruct T as [x|id m x Hg]; [reflexivity|]. cbn [with_chars run_foreign ref_of]. rewrite Hg. reflexivity. }
    rewrite E, until_nul_free by exact Nn. cbn [run_foreign]. rewrite G. reflexivity.
  - unfold Source.call_sym at 1. rewrite Bc. change (p_callee P) with callees. rewrite Cc. reflexivity.
Qed.
Print Assumptions call_of_no_function_aborts.

(** ** A case: the libraries of [libraries_case] and its source's function [show] *)
Definition num_callees (c : nat) : list value -> fprog unit :=
  if (c =? 150)%nat then std_get_function_index (get_function_index std_s6)
  else if (c =? 151)%nat then std_call_function else if (c =? 143)%nat then std_int_to_str else fun _ => FUB.
Lemma std_ready : ready std_s6.
Proof.
  assert (F : fits_c std_s6) by (vm_compute; repeat split).
  exact (ready_by_run 300 lib_mods None std_src std_s5 std_ts std_s6 (proj2 (proj2 std_reachable)) lib_mods_steps std_compiles F).
Qed.
Definition found (name : string) : sym := match reference_function (k_tbl std_s6) (text_of name) with Some y => y | None => mkSym 0 [] SyModule end.
Example indirect_case :
  ready std_s6 /\ means std_s6 num_callees (found "get_function_index") (std_get_function_index (get_function_index std_s6)) /\
  means std_s6 num_callees (found "call_function") std_call_function /\
  reference_function (k_tbl std_s6) (text_of "show") = Some (found "show") /\
  (exists i params locals ret, sy_body (found "show") = SyFunc i params locals ret /\ Z.of_nat i < 2^31) /\ nul_free (text_of "show") /\
  (forall y, In y (tb_syms (k_tbl std_s6)) -> ~ is_tiny (text_of "strlen") y) /\
  let P := program_of std_s6 num_callees in
  match Source.call_sym P (enter_fn P 50) 0 3 (found "call_function") [VInt (get_function_index std_s6 (text_of "show")); VInt 12] (start_sst P tt) with
  | Ok (v, st) => text_of_value (s_heap st) v (text_of "12")
  | _ => False
  end.
Proof.
  split; [exact std_ready|]. split; [|split; [|split; [vm_compute; reflexivity|split; [|split; [|split]]]]].
  - destruct (sy_body (found "get_function_index")) as [| | |i gs va g c| | | |] eqn:B; vm_compute in B; try discriminate. injection B as <- <- <- <- <-. eexists _, _, _, _, 150%nat. split; [vm_compute; reflexivity|reflexivity].
  - eexists _, _, _, _, 151%nat. split; [vm_compute; reflexivity|reflexivity].
  - eexists _, _, _, _. split; [vm_compute; reflexivity|lia].
  - intros I. vm_compute in I. intuition discriminate.
  - assert (Q : forallb (fun y => negb (match sy_body y with SyFunc _ _ _ _ => text_eqb (sy_name y) (text_of "strlen") | _ => false end)) (tb_syms (k_tbl std_s6)) = true) by (vm_compute; reflexivity).
    intros y I (N & i & a & l & r & B). rewrite forallb_forall in Q. specialize (Q y I). rewrite B, N, text_eqb_refl in Q. discriminate.
  - vm_compute. econstructor. reflexivity.
Qed.
