(** * C25: well-typed programs do not confuse kinds of values *)
From Verif Require Import Base Token Lexer Values Strings Heap Code CodeProofs FileLine Syntax Symbols Parser Resolve Compile VM VMSpec VMBasics
  Layout LayoutProofs CompileProofs TableInv LayTable Host Whole SimExpr Props_Compile HeightSpec Props_Height TypeSpec TypeCode TypeVM TypeLink
  TagTable TagWhole.
Local Open Scope nat_scope.

Lemma ready_tags s : ready s -> tagd s.
Proof. intros (n & mods & file & src & ts & s0 & R & Hm & E & _). exact (compile_tags _ _ _ _ _ _ _ R Hm E). Qed.

Lemma ready_typing {H} s (callees : nat -> list value -> fprog H) props :
  ready s -> Forall (plain_s (k_tbl s) false) (k_hist s) -> Forall (static_s (k_tbl s)) (k_hist s) ->
  exists st, typing (k_tbl s) (k_code s) (m_fpcs (machine_of s callees props)) st.
Proof.
  intros R P Sa. destruct (ready_tags _ R) as [T W]. apply code_typing; auto; [apply tidy_structs; auto|apply tidy_fields; auto].
Qed.

(** ** The theorem

    [s]: the state after any history of successful compiles and host calls, whose
    compiled statements are in the statically typed fragment ([static_s]) and
    initialise all fields ([plain_s]); [inv]: what the host maintains about its
    own memory; the host keeps its side of the contract ([polite_host]).  Then
    for any schedule of the collector: *)
Section C25.
Context {H : Type} (s : kst) (callees : nat -> list value -> fprog H) (props : natives H) (inv : store -> H -> Prop).
Hypothesis R : ready s.
Hypothesis P : Forall (plain_s (k_tbl s) false) (k_hist s).
Hypothesis Sa : Forall (static_s (k_tbl s)) (k_hist s).
Hypothesis Ph : polite_host (k_tbl s) H inv callees props.
Notation M := (machine_of s callees props).

Let HX : forall y i a va r c, In y (tb_syms (k_tbl s)) -> sy_body y = SyForeign i a va r c -> nth_error (m_foreign M) i = Some (callees c).
Proof. intros y i a va r c I B. exact (proj2 (ln_foreign _ _ _ (ready_linked s callees props R) y i a va r c I B)). Qed.
Let G : good full (k_tbl s) := ld_good _ _ (proj1 (ready_loaded _ R)).
Let HU : forall y i a l r, In y (tb_syms (k_tbl s)) -> sy_body y = SyFunc i a l r -> sym_at (k_tbl s) (sy_id y) = Some y.
Proof. intros y i a l r I _. apply in_sym_at; auto. apply (gd_unique _ _ G). Qed.
Let HG : forall y y' i b g b' g', In y (tb_syms (k_tbl s)) -> In y' (tb_syms (k_tbl s)) ->
  sy_body y = SyGlobal i b g -> sy_body y' = SyGlobal i b' g' -> y = y'.
Proof.
  intros y y' i b g b' g' I I' B B'. apply (Whole.keys_unique (tb_syms (k_tbl s)) (gd_keys _ _ G) y y' (NGlob, i)); auto; [rewrite B|rewrite B']; left; reflexivity.
Qed.

(** Running the program, or running it again on a thread that has returned: every
    instruction gets operands of the right kind and the thread stays typed. *)
Theorem program_typed : forall poll S u t, typed_thread (k_tbl s) H inv S u -> t_stk u = [] -> t_fp u = 0 -> t_frames u = [] ->
  cycled M poll (start_thread M u) t ->
  operands_ok M t /\ exists S', more S S' /\ typed_thread (k_tbl s) H inv S' t.
Proof.
  intros poll S u t T E1 E2 E3 C. destruct (ready_typing s callees props R P Sa) as (st & Ht).
  destruct (cycled_typed _ M poll st inv callees Ht Ph HX eq_refl HU HG _ _ C S (or_introl (start_typed _ M st inv Ht S u T E1 E2 E3))) as (S' & Mo & [W|W]).
  - split; [exact (running_operands _ M st inv Ht _ _ _ _ _ W)|]. exists S'. split; auto. apply W.
  - split; [apply halted_operands; apply W|]. exists S'. split; auto. apply W.
Qed.

(** Inside a function called by the host, at any depth of nesting. *)
Theorem callback_typed : forall poll S u f args params locals r t1 t, typed_thread (k_tbl s) H inv S u ->
  fun_sig (k_tbl s) (Z.to_nat f) params locals r -> args_typed (k_tbl s) S params args ->
  enter_call M u f args = Ok t1 -> inside M poll (length (t_frames u)) t1 t -> length (t_frames u) < length (t_frames t) ->
  operands_ok M t /\ exists S', more S S' /\ typed_thread (k_tbl s) H inv S' t.
Proof.
  intros poll S u f args params locals r t1 t T Fs Ar E I L. destruct (ready_typing s callees props R P Sa) as (st & Ht).
  destruct (enter_typed _ M st inv Ht eq_refl HU _ _ _ _ _ _ _ _ T Fs Ar E) as (fid & _ & Rn).
  destruct (inside_typed _ M poll st inv callees Ht Ph HX eq_refl HU HG _ (Some fid) _ _ _ ltac:(discriminate) I _ Rn L) as (S' & Mo & W).
  split; [exact (running_operands _ M st inv Ht _ _ _ _ _ W)|]. exists S'. split; auto. apply W.
Qed.

(** The result of a function called by the host has the type the function declares. *)
Theorem call_result_typed : forall poll S u f args params locals r v u', typed_thread (k_tbl s) H inv S u ->
  fun_sig (k_tbl s) (Z.to_nat f) params locals r -> args_typed (k_tbl s) S params args ->
  calls M poll u f args (Ok (v, u')) ->
  exists S', more S S' /\ typed_thread (k_tbl s) H inv S' u' /\ has_opt (k_tbl s) S' r v.
Proof.
  intros poll S u f args params locals r v u' T Fs Ar (_ & fuel & E). destruct (ready_typing s callees props R P Sa) as (st & Ht).
  destruct (call_typed _ M poll st inv callees Ht Ph HX eq_refl HU HG fuel _ _ _ _ _ _ _ _ _ T Fs Ar E) as (S' & A & B & C & _). eauto.
Qed.

(** A new thread is typed if the host's memory is in order. *)
Theorem new_thread_typed : forall w, inv store0 w -> typed_thread (k_tbl s) H inv store0 (init_thread w).
Proof.
  intros w Iw. constructor; cbn; try discriminate; auto.
  all: try (intros ob id []; fail). all: repeat split; try constructor; cbn; auto.
Qed.
End C25.
Print Assumptions program_typed.
Print Assumptions callback_typed.
Print Assumptions call_result_typed.

(** ** A program that meets the hypotheses *)
Ltac static_tac := unfold static_asg;
  repeat (first [apply Forall_nil|apply Forall_cons|split|exact Logic.I|reflexivity
    |(intros ? ? ? ? [= <-] [= <- <- <-]; cbn; lia)|(intros ? [= <-]; unfold compound_typed; cbn; auto; fail)|discriminate|(intros; discriminate)|(intros; reflexivity)]).
Lemma static_demo : Forall (static_s (k_tbl demo_state)) (k_hist demo_state).
Proof.
  apply HeightProofs.all_forall. vm_compute. static_tac.
Qed.
(** The demo host: what it logs is not used again. *)
Lemma polite_demo : polite_host (k_tbl demo_state) (list (list value)) (fun _ _ => True) demo_callees demo_natives.
Proof.
  constructor; auto. intros y i params va r c S vs I B _. unfold demo_callees. do 8 (destruct c as [|c]; [try exact Logic.I|]); try exact Logic.I.
  cbn. intros. split; auto. constructor.
Qed.
Example typed_case := program_typed demo_state demo_callees demo_natives (fun _ _ => True) demo_ready plain_demo static_demo polite_demo.
Example typed_start : forall w, typed_thread (k_tbl demo_state) (list (list value)) (fun _ _ => True) store0 (init_thread w).
Proof. intros w. apply new_thread_typed. exact Logic.I. Qed.
(** A call by the host: [fact(4)] on a new thread. *)
Example callback_case : forall poll w v u', calls (machine_of demo_state demo_callees demo_natives) poll (init_thread w) 0 [VInt 4] (Ok (v, u')) ->
  exists S', has_opt (k_tbl demo_state) S' (Some GInt) v.
Proof.
  intros poll w v u' C.
  assert (F : fun_sig (k_tbl demo_state) (Z.to_nat 0) [mkLv (text_of "n") (-1)%Z 0 false false (Some GInt)] [] (Some GInt)).
  { exists (mkSym 5 (text_of "fact") (SyFunc 0 [mkLv (text_of "n") (-1)%Z 0 false false (Some GInt)] [] (Some GInt))). split; [|reflexivity].
    vm_compute. tauto. }
  assert (A : args_typed (k_tbl demo_state) store0 [mkLv (text_of "n") (-1)%Z 0 false false (Some GInt)] [VInt 4]).
  { constructor; [|constructor]. intros g [= <-]. constructor. }
  destruct (call_result_typed demo_state demo_callees demo_natives (fun _ _ => True) demo_ready plain_demo static_demo polite_demo
    poll store0 _ 0%Z _ _ _ _ _ _ (typed_start w) F A C) as (S' & _ & _ & X). eauto.
Qed.

(** ** What the checker lets through *)

(** [n] cycles *)
Fixpoint go {H} (M : machine H) (n : nat) (t : thread H) : option (thread H) :=
  match n with
  | 0 => Some t
  | S n => match execute_cycle M no_poll 50 t with Ok (_, t') => go M n t' | _ => None end
  end.
Lemma go_cycled {H} (M : machine H) n : forall t t', go M n t = Some t' -> cycled M no_poll t t'.
Proof.
  induction n as [|n IH]; intros t t' E; cbn [go] in E; [injection E as <-; apply cycled_refl|].
  destruct (execute_cycle M no_poll 50 t) as [[b t1]| | |] eqn:Ec; try discriminate. eapply cycled_step; [|apply IH; exact E]. split; [discriminate|]. exists 50. exact Ec.
Qed.
Lemma wrong_operands {H} (M : machine H) t i n : (0 <= t_pc t)%Z -> decode (m_code M) (t_pc t) = Ok (i, n) -> ~ right_kinds (t_heap t) i (t_stk t) -> ~ operands_ok M t.
Proof. intros P D N O. apply N. apply (O i n). split; auto. Qed.

(** [confused s]: running the program of [s] in a new thread reaches an
    instruction with operands of the wrong kind. *)
Definition confused (s : kst) : Prop := exists t, let M := machine_of s (fun _ _ => FUB) (mkNatives unit (fun _ _ _ => []) (fun _ w _ => w)) in
  cycled M no_poll (start_thread M (init_thread tt)) t /\ ~ operands_ok M t.

Definition src1 : text := text_of "x := 1.5 y := x + 1".
Definition src2 : text := text_of "a: any = true b := cast(a, int) + 2".
Definition src3 : text := text_of "a := ""x"" a += ""y""".
Definition src4 : text := text_of "func f(a: int): int { return a + 2 } func g(): int { x := true return f() } z := g()".
Definition src5 : text := text_of "func int_get_index(a: bool, b: bool): int { c := if a b else a return if c 1 else 2 } i := 5 j := i[2]".
Definition src6 : text := text_of "func f(): int { } z := f() + 2".
Definition st1 : kst := Eval vm_compute in state_of src1. Definition ts1 : list tstmt := Eval vm_compute in trees_of src1.
Definition st2 : kst := Eval vm_compute in state_of src2. Definition ts2 : list tstmt := Eval vm_compute in trees_of src2.
Definition st3 : kst := Eval vm_compute in state_of src3. Definition ts3 : list tstmt := Eval vm_compute in trees_of src3.
Definition st4 : kst := Eval vm_compute in state_of src4. Definition ts4 : list tstmt := Eval vm_compute in trees_of src4.
Definition st5 : kst := Eval vm_compute in state_of src5. Definition ts5 : list tstmt := Eval vm_compute in trees_of src5.
Definition st6 : kst := Eval vm_compute in state_of src6. Definition ts6 : list tstmt := Eval vm_compute in trees_of src6.
Lemma comp1 : compile_string 100 (fun _ _ _ _ => CAbort) None src1 small_s1 = COk ts1 st1. Proof. vm_cast_no_check (eq_refl (COk ts1 st1)). Qed.
Lemma comp2 : compile_string 100 (fun _ _ _ _ => CAbort) None src2 small_s1 = COk ts2 st2. Proof. vm_cast_no_check (eq_refl (COk ts2 st2)). Qed.
Lemma comp3 : compile_string 100 (fun _ _ _ _ => CAbort) None src3 small_s1 = COk ts3 st3. Proof. vm_cast_no_check (eq_refl (COk ts3 st3)). Qed.
Lemma comp4 : compile_string 100 (fun _ _ _ _ => CAbort) None src4 small_s1 = COk ts4 st4. Proof. vm_cast_no_check (eq_refl (COk ts4 st4)). Qed.
Lemma comp5 : compile_string 100 (fun _ _ _ _ => CAbort) None src5 small_s1 = COk ts5 st5. Proof. vm_cast_no_check (eq_refl (COk ts5 st5)). Qed.
Lemma comp6 : compile_string 100 (fun _ _ _ _ => CAbort) None src6 small_s1 = COk ts6 st6. Proof. vm_cast_no_check (eq_refl (COk ts6 st6)). Qed.
Ltac plain_tac := apply HeightProofs.all_forall; vm_compute; repeat (first [split|exact Logic.I|intros ? [= <-]|discriminate|(intros; discriminate)|lia|auto 10]).
Ltac confuse n := eexists; cbv zeta; split; [apply (go_cycled _ n); vm_compute; reflexivity|];
  eapply wrong_operands; [vm_compute; discriminate|vm_compute; reflexivity|];
  cbn [right_kinds is_narrow t_heap t_stk]; unfold number_or_null, int_or_null, bool_or_null;
  intros X; repeat match goal with
    | H : _ /\ _ |- _ => destruct H
    | H : _ \/ _ |- _ => destruct H
    | H : exists _, _ |- _ => destruct H
    end; discriminate.

(** [x + 1] on a float [x] is compiled to the increment of an integer, which
    changes the last bit of the float: with [x = 1.5] the result is not [2.5]. *)
Theorem float_plus_one_refuted : exists s, ready s /\ Forall (plain_s (k_tbl s) false) (k_hist s) /\ confused s /\
  forall (callees : nat -> list value -> fprog unit) props, let M := machine_of s callees props in
  exists t, runs M no_poll (start_thread M (init_thread tt)) (Ok t) /\
    t_globs t = Some [VFloat 4609434218613702656; VFloat 4609434218613702657] /\ 4609434218613702657%Z <> 4612811918334230528%Z.
Proof.
  exists st1. split; [apply (ready_small src1 ts1 _ comp1); vm_compute; repeat split|]. split; [plain_tac|]. split; [confuse 3|].
  intros callees props M. eexists. split; [split; [discriminate|exists 20; vm_compute; reflexivity]|]. split; [reflexivity|discriminate].
Qed.
Print Assumptions float_plus_one_refuted.

(** A cast from [any] is not checked at run time. *)
Theorem cast_refuted : exists s, ready s /\ Forall (plain_s (k_tbl s) false) (k_hist s) /\ confused s.
Proof. exists st2. split; [apply (ready_small src2 ts2 _ comp2); vm_compute; repeat split|]. split; [plain_tac|]. confuse 4. Qed.
(** A compound assignment to a string is accepted. *)
Theorem compound_string_refuted : exists s, ready s /\ Forall (plain_s (k_tbl s) false) (k_hist s) /\ confused s.
Proof. exists st3. split; [apply (ready_small src3 ts3 _ comp3); vm_compute; repeat split|]. split; [plain_tac|]. confuse 4. Qed.
(** So is a call of a Tiny function with too few arguments: it reads a variable of its caller. *)
Theorem few_arguments_refuted : exists s, ready s /\ Forall (plain_s (k_tbl s) false) (k_hist s) /\ confused s.
Proof. exists st4. split; [apply (ready_small src4 ts4 _ comp4); vm_compute; repeat split|]. split; [plain_tac|]. confuse 9. Qed.
(** The types of index functions are not compared with the operands. *)
Theorem index_function_refuted : exists s, ready s /\ Forall (plain_s (k_tbl s) false) (k_hist s) /\ confused s.
Proof. exists st5. split; [apply (ready_small src5 ts5 _ comp5); vm_compute; repeat split|]. split; [plain_tac|]. confuse 8. Qed.
(** Null cannot be excluded: a function with a result type may end without
    [return], and the addition of its result to 2 has no meaning. *)
Theorem null_result_refuted : exists s, ready s /\ Forall (plain_s (k_tbl s) false) (k_hist s) /\ Forall (static_s (k_tbl s)) (k_hist s) /\
  forall (callees : nat -> list value -> fprog unit) props, let M := machine_of s callees props in
  runs M no_poll (start_thread M (init_thread tt)) UB.
Proof.
  exists st6. split; [apply (ready_small src6 ts6 _ comp6); vm_compute; repeat split|]. split; [plain_tac|].
  split; [apply HeightProofs.all_forall; vm_compute; static_tac|].
  intros callees props M. split; [discriminate|exists 20; vm_compute; reflexivity].
Qed.
Print Assumptions null_result_refuted.
