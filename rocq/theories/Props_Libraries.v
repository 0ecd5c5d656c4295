(** * C49: the rest of the standard library is bound as documented *)
From Verif Require Import Base Token Lexer LexerSpec Values Heap Strings Code Syntax Symbols Parser Resolve VM Source Compile
  CompileProofs Layout TableInv ParserInv Host HostInv LayTable Whole Preserve TagTable TagParse TagWhole Typing TypingProofs
  Grammar BindSpec BindProofs Props_Compile Props_Names Props_Parser Props_Bind Scope ScopeProofs StdBind SigText LibrarySpec
  LibraryProofs LibDict Props_Library LibScript.
Local Open Scope nat_scope.

(** The three calls and what each is to bind *)
Inductive library : ((nat -> nat) -> nat -> km unit) -> list item -> Prop :=
| l_standard : library bind_standard_lib standard_library
| l_io : library bind_standard_io io_library
| l_i64 : library bind_i64 i64_library.

(** The calls the library makes *)
Definition written_op (addr : nat -> nat) (i : item) : host_op :=
  match i with
  | ItType x => HType x
  | ItConst x z => HConst x (HInt z)
  | ItMacro x => HMacro x
  | ItFun r => HFun (written (r_name r) (r_args r) (r_va r) (r_ret r)) (addr (r_place r))
  end.
Definition bare_op (addr : nat -> nat) (i : item) : host_op :=
  match i with ItFun r => HFun (r_name r) (addr (r_place r)) | _ => written_op addr i end.
Definition is_bare (i : item) : bool := match i with ItFun r => Nat.leb 53 (r_place r) | _ => false end.
Definition ops_of (addr : nat -> nat) (l : list item) : list host_op := map (fun i => if is_bare i then bare_op addr i else written_op addr i) l.

Lemma ops_for addr l : Forall (fun i => is_bare i = true -> exists x p, i = ItFun (Row x [] true (text_of "any") p)) l -> Forall2 (op_for addr) l (ops_of addr l).
Proof.
  intros F. induction F as [|i l Hi F IH]; [constructor|]. constructor; [|exact IH]. destruct (is_bare i) eqn:B.
  - destruct (Hi eq_refl) as (x & p & ->). exact (of_bare addr x p).
  - destruct i; constructor.
Qed.
Lemma library_bare bind lib : library bind lib -> Forall (fun i => is_bare i = true -> exists x p, i = ItFun (Row x [] true (text_of "any") p)) lib.
Proof.
  intros []; repeat (apply Forall_cons; [intros B; first [discriminate B|eexists _, _; reflexivity]|]); apply Forall_nil.
Qed.
Lemma library_ok bind lib : library bind lib -> well_formed lib = true.
Proof. intros []; vm_compute; reflexivity. Qed.
Lemma cbind_run addr n l (k : km unit) ops s : (forall x, k x = run_ops n ops x) -> cbind (bind_all addr n l) (fun _ => k) s = run_ops n (fun_ops addr l ++ ops) s.
Proof. intros K. rewrite run_ops_app. unfold cbind. rewrite bind_all_ops. destruct (run_ops n (fun_ops addr l) s) as [[] s1| | | | |]; auto. Qed.
Lemma cbind_op n o (k : km unit) ops s : (forall x, k x = run_ops n ops x) -> cbind (host n o) (fun _ => k) s = run_ops n (o :: ops) s.
Proof. intros K. cbn [run_ops]. unfold cbind. destruct (host n o s) as [[] s1| | | | |]; auto. Qed.
Lemma library_runs bind lib addr n s : library bind lib -> bind addr n s = run_ops n (ops_of addr lib) s.
Proof.
  intros [].
  - unfold bind_standard_lib. etransitivity.
    + apply cbind_op. intros x1. apply cbind_run. intros x2. apply cbind_op. intros x3. apply cbind_run. intros x4. apply cbind_op. intros x5. apply bind_all_ops.
    + reflexivity.
  - unfold bind_standard_io. etransitivity; [apply cbind_op; intros x; apply bind_all_ops|reflexivity].
  - unfold bind_i64. etransitivity; [apply cbind_op; intros x; apply bind_all_ops|reflexivity].
Qed.

(** Binding a library works exactly when none of its names is taken *)
Theorem library_binding : forall bind lib addr s, library bind lib -> reachable s ->
  ((exists n s', bind addr n s = COk tt s') <-> Forall (free (k_tbl s)) lib).
Proof.
  intros bind lib addr s L R. pose proof (library_ok _ _ L) as W. apply Bool.andb_true_iff in W as (C & D). apply distinct_nodup in D.
  pose proof (ops_for addr lib (library_bare _ _ L)) as F. split.
  - intros (n & s' & E). rewrite (library_runs _ _ addr n s L) in E. apply (script_free addr n lib (ops_of addr lib) [] s s' F C D R (Forall_nil _) E).
  - intros Fr. destruct (script_works addr lib (ops_of addr lib) [] s F C D R (Forall_nil _) Fr) as (n & s' & H). exists n, s'. rewrite (library_runs _ _ addr n s L). apply H. auto.
Qed.
Print Assumptions library_binding.

(** What programs see of an item in a later state [z], when it was bound in [s] *)
Definition promised (addr : nat -> nat) (s z : kst) (i : item) : Prop :=
  match i with
  | ItType x => (forall y fs, first (a_type x) (tb_syms (k_tbl s)) y -> sy_body y <> SyStruct true fs) ->
      exists a, names_type (k_tbl z) x (GSym a) /\ is_type (k_tbl z) (GSym a) /\
        (forall g, assigns (k_tbl z) g (GSym a) <-> exists a', g = GSym a' /\ denotes (k_tbl z) a' x SyForeignTag)
  | ItConst x v => exists id, lookup (env_of (k_tbl z)) x = Some (RConst id) /\ var_type (k_tbl z) (RConst id) GInt /\
      forall H (callees : nat -> list Values.value -> fprog H) fe st, read_var (program_of z callees) fe (RConst id) st = Ok (VInt v)
  | ItMacro x => exists y, In y (tb_syms (k_tbl z)) /\ a_macro x y
  | ItFun r =>
      (no_function_named (k_tbl s) (r_name r) -> exists f, function_named (k_tbl z) (r_name r) f /\ is_row addr (k_tbl z) r f) /\
      (forall f, function_named (k_tbl s) (r_name r) f -> exists f', function_named (k_tbl z) (r_name r) f' /\ sy_id f' = sy_id f)
  end.
Theorem library_promises : forall bind lib addr n s s' z, library bind lib -> reachable s -> bind addr n s = COk tt s' -> steps s' z ->
  Forall (promised addr s z) lib.
Proof.
  intros bind lib addr n s s' z L R E S. pose proof (library_ok _ _ L) as W. apply Bool.andb_true_iff in W as (C & D). apply distinct_nodup in D.
  pose proof (ops_for addr lib (library_bare _ _ L)) as F. rewrite (library_runs _ _ addr n s L) in E.
  pose proof (script_seen addr n z lib (ops_of addr lib) [] s s' F C D R (Forall_nil _) E S) as Se.
  rewrite Forall_forall in Se |- *. intros i I. specialize (Se i I). destruct i as [x|x v|x|r]; cbn [seen promised] in *.
  - intros U. apply Se; [|exact U]. clear -L I. apply prim_none. destruct L; cbn in I; repeat (destruct I as [I|I]; [first [discriminate I|injection I as <-; reflexivity]|]); destruct I.
  - exact Se.
  - exact Se.
  - split.
    + intros N. apply no_function_at in N. rewrite N in Se. destruct Se as (id & i & gs & g & Fn & Fa & G). eexists. split; [apply function_at; exact Fn|]. exists id, i, gs, g. auto.
    + intros f Fn. apply function_at in Fn. rewrite Fn in Se. destruct Se as (f' & Fn' & Q). exists f'. split; [apply function_at; exact Fn'|exact Q].
Qed.
Print Assumptions library_promises.

(** Indexing: [s[i]] on a text is a whole number, the character's code *)
Theorem string_indexing : forall addr n s s' z es te ei ti, reachable s -> bind_standard_lib addr n s = COk tt s' -> steps s' z ->
  no_function_named (k_tbl s) (text_of "str_get_index") ->
  types (k_tbl z) es te -> tag_of te = GStr -> types (k_tbl z) ei ti ->
  exists f set, function_named (k_tbl z) (text_of "str_get_index") f /\ sy_name f = text_of "str_get_index" /\
    (exists id i, f = mkSym id (text_of "str_get_index") (SyForeign i [GStr; GInt] false GInt (addr 37))) /\
    types (k_tbl z) (EIndex es ei) (TIndex te ti (sy_id f) set GInt).
Proof.
  intros addr n s s' z es te ei ti R E S N Te Tg Ti. pose proof (library_promises _ _ addr n s s' z l_standard R E S) as P.
  set (r := Row (text_of "str_get_index") (map text_of ["str"; "int"]%string) false (text_of "int") 37).
  assert (I : In (ItFun r) standard_library) by (do 7 right; left; reflexivity). rewrite Forall_forall in P. destruct (P _ I) as (P1 & _). destruct (P1 N) as (f & Fn & id & i & gs & g & Ef & Fa & G).
  assert (gs = [GStr; GInt]) as -> by (eapply all_one; [|exact Fa]; repeat constructor; cbn; tauto).
  assert (g = GInt) as -> by (eapply names_one; [|exact G]; left; cbn; tauto).
  assert (Se : exists set, setter_of (k_tbl z) (text_of "str") set).
  { destruct (reference_function (k_tbl z) (setter (text_of "str"))) as [q|] eqn:Q; [exists (Some (sy_id q)); constructor; apply function_at; exact Q|exists None; constructor; apply no_function_at; exact Q]. }
  destruct Se as (set & Se). exists f, set. split; [exact Fn|]. split; [subst f; reflexivity|]. split; [subst f; exists id, i; reflexivity|].
  eapply ty_eindex; [exact Te|exact Ti|rewrite Tg; constructor|exact Fn|subst f; constructor|exact Se].
Qed.
Print Assumptions string_indexing.

(** ** A case: all of the library bound to a state that has compiled a program's
    worth of bindings, and a source that uses it *)
Definition std_s3 : kst := Eval vm_compute in match bind_standard_lib lib_addr 60 lib_s1 with COk _ s => s | _ => init_kst end.
Definition std_s4 : kst := Eval vm_compute in match bind_standard_io lib_addr 60 std_s3 with COk _ s => s | _ => init_kst end.
Definition std_s5 : kst := Eval vm_compute in match bind_i64 lib_addr 60 std_s4 with COk _ s => s | _ => init_kst end.
Definition std_src : text := text_of "use array(""str"") as names
ns := names(""a"", ""bc"")
n := strlen(strcat(ns[0], names_pop(ns))) + ""xyz""[1]
big := i64_add_many(int_to_i64(INT_MAX), int_to_i64(n))
printf(""%s"", i64_to_string(big))
func show(n: int): str { return int_to_str(n) }".
Definition std_ts : list tstmt := Eval vm_compute in match compile_string 300 lib_mods None std_src std_s5 with COk ts _ => ts | _ => [] end.
Definition std_s6 : kst := Eval vm_compute in match compile_string 300 lib_mods None std_src std_s5 with COk _ s => s | _ => init_kst end.

Lemma std_bound : bind_standard_lib lib_addr 60 lib_s1 = COk tt std_s3 /\ bind_standard_io lib_addr 60 std_s3 = COk tt std_s4 /\
  bind_i64 lib_addr 60 std_s4 = COk tt std_s5.
Proof.
  split; [vm_cast_no_check (eq_refl (COk tt std_s3))|]. split; [vm_cast_no_check (eq_refl (COk tt std_s4))|vm_cast_no_check (eq_refl (COk tt std_s5))].
Qed.
Lemma std_compiles : compile_string 300 lib_mods None std_src std_s5 = COk std_ts std_s6.
Proof. vm_cast_no_check (eq_refl (COk std_ts std_s6)). Qed.
Lemma library_steps bind lib addr n s s' : library bind lib -> bind addr n s = COk tt s' -> steps s s'.
Proof. intros L E. rewrite (library_runs _ _ addr n s L) in E. eapply run_ops_steps. exact E. Qed.
Lemma std_reachable : reachable std_s3 /\ reachable std_s4 /\ reachable std_s5.
Proof.
  destruct std_bound as (E3 & E4 & E5). assert (T : forall s s', reachable s -> steps s s' -> reachable s').
  { intros s s' (z & C & Z) S. exists z. split; [exact C|eapply steps_app; eauto]. }
  assert (R3 : reachable std_s3) by (eapply T; [exact (proj2 lib_reachable)|exact (library_steps _ _ _ _ _ _ l_standard E3)]).
  assert (R4 : reachable std_s4) by (eapply T; [exact R3|exact (library_steps _ _ _ _ _ _ l_io E4)]).
  split; [exact R3|]. split; [exact R4|]. eapply T; [exact R4|exact (library_steps _ _ _ _ _ _ l_i64 E5)].
Qed.
(** The three libraries can be bound, one after the other, and none can be bound twice;
    afterwards a source using all of them compiles *)
Example libraries_case :
  Forall (free (k_tbl lib_s1)) standard_library /\ Forall (free (k_tbl std_s3)) io_library /\ Forall (free (k_tbl std_s4)) i64_library /\
  ~ Forall (free (k_tbl std_s5)) standard_library /\
  (forall r, In (ItFun r) standard_library -> no_function_named (k_tbl lib_s1) (r_name r)) /\
  reachable std_s5 /\ compile_string 300 lib_mods None std_src std_s5 = COk std_ts std_s6 /\ length std_ts = 6.
Proof.
  destruct std_bound as (E3 & E4 & E5). destruct std_reachable as (R3 & R4 & R5).
  split; [apply (library_binding _ _ lib_addr _ l_standard (proj2 lib_reachable)); eauto|].
  split; [apply (library_binding _ _ lib_addr _ l_io R3); eauto|].
  split; [apply (library_binding _ _ lib_addr _ l_i64 R4); eauto|].
  split.
  { intros F. assert (I : In (ItFun (Row (text_of "strlen") (map text_of ["str"]%string) false (text_of "int") 36)) standard_library) by (right; left; reflexivity).
    rewrite Forall_forall in F. specialize (F _ I). cbn [free r_name] in F. apply (none_find _ _ _ (foreign_is _)) in F. vm_compute in F. discriminate. }
  split.
  { assert (Q : Forall (fun i => match i with ItFun r => reference_function (k_tbl lib_s1) (r_name r) = None | _ => True end) standard_library).
    { repeat (apply Forall_cons; [vm_compute; first [reflexivity|exact I]|]). apply Forall_nil. }
    intros r I. apply no_function_at. rewrite Forall_forall in Q. exact (Q _ I). }
  split; [exact R5|]. split; [exact std_compiles|reflexivity].
Qed.
