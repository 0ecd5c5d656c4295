(** * Properties of bytecode and the virtual machine *)
From Verif Require Import Base Float64 Values Code CodeSpec CodeProofs FileLine FileLineSpec FileLineProofs
  Heap GCSpec GCProofs VM VMBasics VMSpec VMInv VMFrame Disasm VMProofs VMProps.
Local Open Scope Z_scope.

(** A machine to try things on: [code] with no strings, functions or foreign
    functions beyond those given; native property 1 gives access to one value. *)
Definition demo (code : list instr) (fpcs : list Z) (fs : list (list value -> fprog unit)) (ng : nat) : machine unit :=
  mkMachine unit (fold_left gen_instr code []) [] fpcs fs ng
    (mkNatives unit (fun _ _ _ => []) (fun _ w _ => w)) (Some stack_size) call_depth.
Definition at_pc (pc : Z) (s : list value) (h : heap) : thread unit :=
  mkThread pc 0 s [] VNull (Some []) h (length h) (length h) 8 tt.

(** ** C16 *)
Theorem operand_round_trip : forall n k v pre post, 0 <= k ->
  let '(p, pos) := gen_value n (2^k) v pre in
  next_aligned (2^k) (plen pre) pos /\
  p = pre ++ repeat op_misaligned (Z.to_nat (pos - plen pre)) ++ le_bytes n v /\
  plen p = pos + Z.of_nat n /\
  read_value_at n (2^k) (p ++ post) (plen pre) = Ok (v mod 256 ^ Z.of_nat n, plen p).
Proof. exact gen_read. Qed.
Print Assumptions operand_round_trip.

Theorem instruction_round_trip : forall pre i post, codable i ->
  (exists tl, gen_instr pre i = pre ++ tl) /\
  decode (gen_instr pre i ++ post) (plen pre) = Ok (i, plen (gen_instr pre i)).
Proof. intros. split; [apply gen_instr_ext|apply decode_gen; auto]. Qed.
Print Assumptions instruction_round_trip.

Theorem patching_is_local : forall n k v w pre post, 0 <= k ->
  let '(p, pos) := gen_value n (2^k) v pre in
  gen_value_at n (2^k) w pos (p ++ post) = Ok (fst (gen_value n (2^k) w pre) ++ post).
Proof. exact patch_operand. Qed.
Print Assumptions patching_is_local.

Example instruction_round_trip_case :
  codable (ICall 3 70000) /\ codable (IPushInt (-5)) /\
  decode (gen_instr [43] (ICall 3 70000)) 1 = Ok (ICall 3 70000, 8) /\
  decode (gen_instr [43] (IPushInt (-5))) 1 = Ok (IPushInt (-5), 16).
Proof. repeat split; try reflexivity; cbn; lia. Qed.

(** The operand of PUSH_STRING (used for string indices above 255) is written in
    four bytes and read in eight, so in half of the positions the VM does not
    even look at the index. *)
Theorem push_string_refuted : forall pre i j post, plen pre mod 8 < 4 ->
  decode (gen_instr pre (IPushString i) ++ post) (plen pre) =
  decode (gen_instr pre (IPushString j) ++ post) (plen pre).
Proof. exact push_string_blind. Qed.
Print Assumptions push_string_refuted.

Theorem push_string_wrong : exists code i k next,
  code = gen_instr (gen_instr [] (IPushString i)) IHalt ++ repeat 0 7 /\ (255 < i) /\
  decode code 0 = Ok (IPushString k, next) /\ k <> i /\ next <> plen (gen_instr [] (IPushString i)).
Proof.
  eexists _, 300, _, _. split; [reflexivity|]. split; [lia|]. split; [vm_compute; reflexivity|].
  split; vm_compute; discriminate.
Qed.
Print Assumptions push_string_wrong.

(** ** C20 *)
Theorem call_returns_to_caller : forall {H} (M : machine H) poll t n f next b t1 t',
  at_instr M t (ICall n f) next -> cycles M poll t (Ok (b, t1)) ->
  inside M poll (length (t_frames t)) t1 t' -> length (t_frames t') = length (t_frames t) ->
  t_pc t' = next /\ t_fp t' = t_fp t /\ t_frames t' = t_frames t /\
  Z.of_nat (length (t_stk t')) = Z.of_nat (length (t_stk t)) - Z.of_nat (Z.to_nat n).
Proof. intros H M poll. exact (call_return M poll). Qed.
Print Assumptions call_returns_to_caller.

Definition twice_code : list instr := [IPushInt 5; ICall 1 0; IGetRetval; IHalt;
                                      IGetLocal (2^32 - 1); IGetLocal (2^32 - 1); IBin OAdd; IReturnValue].
Definition pc_after (n : nat) : Z := plen (fold_left gen_instr (firstn n twice_code) []).
Example call_returns_case :
  let M := demo twice_code [pc_after 4] [] 0 in
  exists t1 t', cycles M real_poll (at_pc (pc_after 1) [VInt 5; VInt 9] []) (Ok (true, t1)) /\
    at_instr M (at_pc (pc_after 1) [VInt 5; VInt 9] []) (ICall 1 0) (pc_after 2) /\
    inside M real_poll 0 t1 t' /\ length (t_frames t') = 0%nat /\
    t_ret t' = VInt 10 /\ t_stk t' = [VInt 9] /\ t_pc t' = pc_after 2.
Proof.
  intros M. eexists _, _.
  split; [split; [discriminate|exists 1%nat; vm_compute; reflexivity]|].
  split; [split; [vm_compute; discriminate|vm_compute; reflexivity]|].
  split.
  { do 4 (eapply inside_step; [vm_compute; lia|split; [discriminate|exists 1%nat; vm_compute; reflexivity]|]).
    apply inside_refl. }
  repeat split; reflexivity.
Qed.

(** Calls beyond the limit abort. *)
Theorem call_depth_limit : forall {H} (M : machine H) poll t n f next,
  at_instr M t (ICall n f) next -> (m_depth M <= length (t_frames t))%nat -> cycles M poll t Abort.
Proof.
  intros H M poll t n f next [P D] L. split; [discriminate|]. exists 0%nat. unfold execute_cycle, cycle.
  destruct (Z.ltb_spec (t_pc t) 0); [lia|]. rewrite D. cbn [obind exec]. unfold push_indir, oassert.
  cbn [with_pc t_frames]. destruct (Nat.ltb_spec (length (t_frames t)) (m_depth M)); [lia|]. reflexivity.
Qed.
Print Assumptions call_depth_limit.

(** ** C21 *)
Theorem host_call_restores_partial : forall {H} (M : machine H) poll t f a v t',
  calls M poll t f a (Ok (v, t')) ->
  t_pc t' = t_pc t /\ t_fp t' = t_fp t /\ length (t_stk t') = length (t_stk t) /\
  t_frames t' = t_frames t /\ t_ret t' = t_ret t.
Proof. intros H M poll. exact (call_restores_L M poll). Qed.
Print Assumptions host_call_restores_partial.

Example host_call_case :
  let M := demo twice_code [pc_after 4] [] 0 in
  exists t', calls M real_poll (at_pc 7 [VInt 9] []) 0 [VInt 21] (Ok (VInt 42, t')) /\ t_stk t' = [VInt 9].
Proof. intros M. eexists. split; [split; [discriminate|exists 6%nat; vm_compute; reflexivity]|reflexivity]. Qed.

(** ** C22, C23 *)
Theorem collector_exact : forall {H} (M : machine H) t t', thread_ok t -> gc M t = Ok t' ->
  let live id := reachable (m_natives M) (t_host t) (t_heap t) (root_values M t) id in
  (forall id, live id -> hget (t_heap t) id <> None /\ hget (t_heap t') id = hget (t_heap t) id) /\
  exists dead,
    keeps (fun o => live (o_id o)) (t_heap t) (t_heap t') /\
    keeps (fun o => ~ live (o_id o)) (t_heap t) dead /\
    t_host t' = finalize_all (m_natives M) (t_host t) dead /\
    t_nobj t' = length (t_heap t') /\ t_max t' = (2 * length (t_heap t'))%nat /\
    thread_ok t' /\ root_values M t' = root_values M t /\
    t_pc t' = t_pc t /\ t_fp t' = t_fp t /\ t_frames t' = t_frames t.
Proof. intros H M. exact (gc_exact_L M no_poll). Qed.
Print Assumptions collector_exact.

(** A collection succeeds whenever no reachable pointer dangles and the reachable
    objects form no cycle. *)
Theorem collector_total : forall {H} (M : machine H) t, thread_ok t ->
  (m_nglobals M <> 0%nat -> exists g, t_globs t = Some g /\ (m_nglobals M <= length g)%nat) ->
  all_alive (m_natives M) (t_host t) (t_heap t) (root_values M t) ->
  ~ reachable_cycle (m_natives M) (t_host t) (t_heap t) (root_values M t) ->
  exists t', gc M t = Ok t'.
Proof. intros H M. exact (gc_total_L M no_poll). Qed.
Print Assumptions collector_total.

(** On a cycle the marking recursion never ends. *)
Theorem collector_cycle_refuted : forall {H} (M : machine H) t, thread_ok t ->
  (m_nglobals M <> 0%nat -> exists g, t_globs t = Some g /\ (m_nglobals M <= length g)%nat) ->
  all_alive (m_natives M) (t_host t) (t_heap t) (root_values M t) ->
  reachable_cycle (m_natives M) (t_host t) (t_heap t) (root_values M t) ->
  gc M t = UB /\ exists rs, roots M t = Ok rs /\
  forall fuel, mark_all (m_natives M) fuel (t_host t) (t_heap t) rs = Fuel.
Proof. intros H M. exact (gc_cycle_L M no_poll). Qed.
Print Assumptions collector_cycle_refuted.

(** The bookkeeping these rest on holds in every history. *)
Theorem object_list_ok : forall {H} (M : machine H) poll t, reached M poll t -> thread_ok t.
Proof. intros H M poll. exact (reached_ok M poll). Qed.
Print Assumptions object_list_ok.

Definition demo_heap : heap :=
  [mkObj 2 false (BStruct [VStruct 1]); mkObj 1 false (BStruct [VInt 4]); mkObj 0 false (BStr (text_of "x"))].
Example collector_case :
  let M := demo [] [] [] 0 in let t := at_pc 0 [VStruct 2] demo_heap in
  thread_ok t /\ exists t', gc M t = Ok t' /\ map o_id (t_heap t') = [2; 1]%nat.
Proof.
  split.
  - split; [split|split]; [| |reflexivity|].
    + repeat constructor; cbn; intuition discriminate.
    + repeat constructor.
    + repeat constructor.
  - eexists. split; [vm_compute; reflexivity|reflexivity].
Qed.
Example collector_cycle_case :
  let M := demo [] [] [] 0 in let t := at_pc 0 [VStruct 0] [mkObj 0 false (BStruct [VStruct 0])] in
  thread_ok t /\ all_alive (m_natives M) (t_host t) (t_heap t) (root_values M t) /\
  reachable_cycle (m_natives M) (t_host t) (t_heap t) (root_values M t).
Proof.
  intros M t. assert (E : edge (m_natives M) (t_host t) (t_heap t) 0 0).
  { eexists _, (VStruct 0). split; [reflexivity|]. split; [constructor; left; reflexivity|reflexivity]. }
  split; [split; [split|split]|split].
  - repeat constructor; cbn; intuition.
  - repeat constructor.
  - reflexivity.
  - repeat constructor.
  - intros id R. assert (id = 0%nat); [|subst; discriminate].
    induction R as [v id Hv Hr|id id' _ IH (o & v & Ho & Hg & Hr)].
    + cbn in Hv. destruct Hv as [<-|[<-|[]]]; cbn in Hr; congruence.
    + subst id. inversion Ho; subst o. cbn in Hg. inversion Hg; subst. destruct H0 as [<-|[]]. cbn in Hr. congruence.
  - exists 0%nat. split; [apply (reach_root _ _ _ _ (VStruct 0)); [right; left; reflexivity|reflexivity]|constructor; auto].
Qed.

(** ** C27 *)
Theorem pc_line_lookup : forall h nstr pc r,
  increasing h -> 0 <= pc -> in_force h pc = Some r -> 0 <= pl_file r < nstr ->
  file_line (table h) nstr pc = Ok (Some (pl_file r), pl_line r).
Proof. exact file_line_in_force. Qed.
Print Assumptions pc_line_lookup.

(** Code compiled without a file name has a line but no file; a thread that is
    not running, or a state without code, has neither. *)
Theorem pc_line_without_file : forall h nstr pc r,
  increasing h -> 0 <= pc -> in_force h pc = Some r -> pl_file r < 0 ->
  file_line (table h) nstr pc = Ok (None, pl_line r).
Proof.
  intros h nstr pc r I P F L. rewrite (file_line_any h nstr pc r I P F). destruct (Z.leb_spec 0 (pl_file r)); [lia|reflexivity].
Qed.
Print Assumptions pc_line_without_file.
Theorem pc_line_nowhere : forall h nstr pc, pc < 0 \/ h = [] -> file_line (table h) nstr pc = Ok (None, 0).
Proof. exact file_line_none. Qed.
Print Assumptions pc_line_nowhere.
Example pc_line_nameless_case :
  increasing [mkPL 0 (-1) 1; mkPL 4 (-1) 2] /\ in_force [mkPL 0 (-1) 1; mkPL 4 (-1) 2] 5 = Some (mkPL 4 (-1) 2).
Proof. repeat split; try reflexivity; cbn; lia. Qed.

Example pc_line_case :
  let h := [mkPL 0 0 1; mkPL 4 0 2; mkPL 4 0 3; mkPL 9 0 7] in
  increasing h /\ in_force h 8 = Some (mkPL 4 0 3) /\ file_line (table h) 1 8 = Ok (Some 0, 3).
Proof. repeat split; try reflexivity; cbn; lia. Qed.

(** ** C30 *)
Theorem disassembler_agrees : forall {H} (M : machine H) poll t i next b t',
  at_instr M t i next -> straight i = true -> disasm_knows i = true ->
  cycles M poll t (Ok (b, t')) ->
  disasm_one (m_code M) (m_strings M) (m_fpcs M) (t_pc t) =
    Ok (Some (fst (written i), snd (written i), if plen (m_code M) <=? t_pc t' then -1 else t_pc t')).
Proof. intros H M poll. exact (disasm_agrees_L M poll). Qed.
Print Assumptions disassembler_agrees.

(** Also for jumps, calls and returns: the address after them. *)
Theorem disassembler_decodes : forall p strs fpcs pc i next,
  decode p pc = Ok (i, next) -> disasm_knows i = true ->
  (forall k, i = IPushStringFF k -> nth_error strs (Z.to_nat k) <> None) ->
  (forall n k, i = ICall n k -> nth_error fpcs (Z.to_nat k) <> None) ->
  (forall n, i = IPushStruct n -> 0 < n) ->
  disasm_one p strs fpcs pc =
    Ok (Some (fst (written i), snd (written i), if plen p <=? next then -1 else next)).
Proof. exact disasm_decode. Qed.
Print Assumptions disassembler_decodes.

Example disassembler_case :
  let p := fold_left gen_instr [IGotoz 12; IPushFloat 0; IHalt] [] in
  decode p 0 = Ok (IGotoz 12, 8) /\ disasm_one p [] [] 0 = Ok (Some ("GOTOZ"%string, [12], 8)) /\
  disasm_one p [] [] 8 = Ok (Some ("PUSH_FLOAT"%string, [0], 24)).
Proof. repeat split; vm_compute; reflexivity. Qed.

(** The disassembler does not know the shift instructions, and skips four bytes
    where the VM's PUSH_STRING skips eight. *)
Theorem disassembler_shift_refuted : forall strs fpcs, exists p,
  decode p 0 = Ok (IBin OShl, 1) /\ disasm_one p strs fpcs 0 = Ok None.
Proof.
  intros strs fpcs. exists (gen_instr (gen_instr [] (IBin OShl)) IHalt). split; vm_compute; reflexivity.
Qed.
Print Assumptions disassembler_shift_refuted.

(** ** C31 *)
Theorem threads_isolated : forall {H} (M : machine H) poll, host_read_only M ->
  forall w ts sched w' ts', sys_run M poll (w, ts) sched (w', ts') ->
  w' = w /\ length ts' = length ts /\
  forall i t, nth_error ts i = Some t ->
    exists t', nth_error ts' i = Some t' /\ solo_run M poll w t (count_occ Nat.eq_dec sched i) t'.
Proof. intros H M poll. exact (threads_isolated_L M poll). Qed.
Print Assumptions threads_isolated.

Example threads_case :
  let M := demo [IPush1; IPush0; ISet 0; IHalt] [] [] 1 in let t := start_thread M (init_thread tt) in
  host_read_only M /\ exists ts', sys_run M real_poll (tt, [t; t]) [0; 1; 1; 0; 1]%nat (tt, ts') /\
    map t_pc ts' = [2; 8] /\ map t_stk ts' = [[VInt 0; VInt 1]; [VInt 1]].
Proof.
  intros M t. split.
  - split; [intros fn []|reflexivity].
  - eexists. split.
    + do 5 (eapply sys_step; [reflexivity|split; [discriminate|exists 0%nat; vm_compute; reflexivity]|]).
      cbn. apply sys_done.
    + split; reflexivity.
Qed.

(** ** C32 *)
Theorem run_is_iterated_cycle : forall {H} (M : machine H) poll t r,
  runs M poll t r <-> iterates M poll t r.
Proof. intros H M poll. exact (runs_iterates M poll). Qed.
Print Assumptions run_is_iterated_cycle.

Theorem halted_stays_halted : forall {H} (M : machine H) poll t, t_pc t < 0 ->
  cycles M poll t (Ok (false, t)) /\ runs M poll t (Ok t).
Proof. intros H M poll. exact (halted_stays M poll). Qed.
Print Assumptions halted_stays_halted.

Theorem cycle_false_only_halted : forall {H} (M : machine H) poll t t',
  cycles M poll t (Ok (false, t')) -> t_pc t < 0 /\ t' = t.
Proof. intros H M poll. exact (cycle_false M poll). Qed.
Print Assumptions cycle_false_only_halted.

Theorem halt_instruction_halts : forall {H} (M : machine H) poll t next b t',
  at_instr M t IHalt next -> cycles M poll t (Ok (b, t')) -> t_pc t' < 0.
Proof. intros H M poll. exact (halt_halts M poll). Qed.
Print Assumptions halt_instruction_halts.

Theorem execution_deterministic : forall {H} (M : machine H) poll t,
  (forall r r', cycles M poll t r -> cycles M poll t r' -> r = r') /\
  (forall r r', runs M poll t r -> runs M poll t r' -> r = r') /\
  (forall f a r r', calls M poll t f a r -> calls M poll t f a r' -> r = r').
Proof.
  intros H M poll t. split; [intros r r'; apply cycles_det|]. split; [intros r r'; apply runs_det|].
  intros f a r r'. apply calls_det.
Qed.
Print Assumptions execution_deterministic.

Example run_case :
  let M := demo twice_code [pc_after 4] [] 0 in
  exists t', runs M real_poll (start_thread M (init_thread tt)) (Ok t') /\ t_stk t' = [VInt 10] /\ t_pc t' < 0.
Proof.
  intros M. eexists. split; [split; [discriminate|exists 20%nat; vm_compute; reflexivity]|]. split; reflexivity.
Qed.

(** ** C33 *)
Theorem integer_arithmetic : forall {H} (M : machine H) poll t o next a b s b' t',
  at_instr M t (IBin o) next -> t_stk t = VInt b :: VInt a :: s -> cycles M poll t (Ok (b', t')) ->
  exists v, t_stk t' = v :: s /\ t_pc t' = next /\
  (is_wide o = true -> v = VInt (int_meaning o a b)) /\
  (is_narrow o = true -> v = VInt (wrap32 (int_meaning o a b))) /\
  (forall P, int_compare o a b = Some P -> exists r, v = VBool r /\ (r = true <-> P)).
Proof. intros H M poll. exact (int_arith_L M poll). Qed.
Print Assumptions integer_arithmetic.

Theorem integer_arithmetic_defined : forall {H} (M : machine H) poll t o next a b s,
  - 2^63 <= a < 2^63 -> - 2^63 <= b < 2^63 ->
  at_instr M t (IBin o) next -> t_stk t = VInt b :: VInt a :: s ->
  poll (t_nobj t) (t_max t) = false ->
  ((exists r, cycles M poll t (Ok r)) <-> int_defined o a b).
Proof. intros H M poll. exact (int_defined_L M poll). Qed.
Print Assumptions integer_arithmetic_defined.

Theorem narrow_results_exact_in_range : forall z, - 2^31 <= z < 2^31 -> wrap32 z = z.
Proof. exact wrap32_small. Qed.
Print Assumptions narrow_results_exact_in_range.

(** Literals and the results of the narrow operators lose their upper half. *)
Theorem narrow_results_refuted : exists t t',
  let M := demo [IBin OOr; IHalt] [] [] 0 in
  cycles M real_poll t (Ok (true, t')) /\ t_stk t = [VInt (2^40); VInt 1] /\ t_stk t' = [VInt 1].
Proof.
  exists (at_pc 0 [VInt (2^40); VInt 1] []). eexists. split; [|split; [reflexivity|]].
  - split; [discriminate|]. exists 0%nat. vm_compute. reflexivity.
  - reflexivity.
Qed.
Print Assumptions narrow_results_refuted.

Theorem literal_refuted : exists t',
  let M := demo [IPushInt (2^31); IHalt] [] [] 0 in
  cycles M real_poll (at_pc 0 [] []) (Ok (true, t')) /\ t_stk t' = [VInt (- 2^31)].
Proof. eexists. split; [split; [discriminate|exists 0%nat; vm_compute; reflexivity]|reflexivity]. Qed.
Print Assumptions literal_refuted.

Example integer_arithmetic_case :
  let M := demo [IBin ODiv; IHalt] [] [] 0 in let t := at_pc 0 [VInt 2; VInt (-7)] [] in
  at_instr M t (IBin ODiv) 1 /\ exists t', cycles M real_poll t (Ok (true, t')) /\ t_stk t' = [VInt (-3)].
Proof.
  split; [split; [cbn; lia|reflexivity]|]. eexists.
  split; [split; [discriminate|exists 0%nat; vm_compute; reflexivity]|reflexivity].
Qed.

(** ** C34 *)
Theorem struct_set_one_cell : forall {H} (M : machine H) poll t k next id v s b t',
  thread_ok t -> at_instr M t (IStructSet k) next -> t_stk t = VStruct id :: v :: s ->
  cycles M poll t (Ok (b, t')) ->
  t_stk t' = s /\ t_pc t' = next /\
  forall id' j, hget (t_heap t') id' <> None ->
    field_of (t_heap t') id' j =
      if ((id' =? id) && (j =? Z.to_nat k))%nat then Some v else field_of (t_heap t) id' j.
Proof. intros H M poll. exact (struct_set_L M poll). Qed.
Print Assumptions struct_set_one_cell.

Theorem struct_get_reads_cell : forall {H} (M : machine H) poll t k next id s b t',
  at_instr M t (IStructGet k) next -> t_stk t = VStruct id :: s ->
  cycles M poll t (Ok (b, t')) ->
  exists v, field_of (t_heap t) id (Z.to_nat k) = Some v /\ t_stk t' = v :: s /\ t_pc t' = next.
Proof. intros H M poll. exact (struct_get_L M poll). Qed.
Print Assumptions struct_get_reads_cell.

Theorem struct_new_is_new : forall {H} (M : machine H) poll t n next s b t',
  thread_ok t -> at_instr M t (IPushStruct n) next -> cycles M poll t (Ok (b, t')) -> t_stk t' = s ->
  exists id, s = VStruct id :: skipn (Z.to_nat n) (t_stk t) /\ hget (t_heap t) id = None /\
    (hget (t_heap t') id <> None -> forall j, field_of (t_heap t') id j =
       nth_error (rev (firstn (Z.to_nat n) (t_stk t))) j).
Proof. intros H M poll. exact (struct_new_L M poll). Qed.
Print Assumptions struct_new_is_new.

Example struct_case :
  let M := demo [IStructSet 1; IHalt] [] [] 0 in
  let t := at_pc 0 [VStruct 0; VInt 7; VStruct 0]
             [mkObj 1 false (BStruct [VInt 1; VInt 2]); mkObj 0 false (BStruct [VInt 3; VInt 4])] in
  thread_ok t /\ at_instr M t (IStructSet 1) 2 /\
  exists t', cycles M real_poll t (Ok (true, t')) /\ field_of (t_heap t') 0 1 = Some (VInt 7) /\
    field_of (t_heap t') 0 0 = Some (VInt 3) /\ field_of (t_heap t') 1 1 = Some (VInt 2).
Proof.
  split; [split; [split|split]; [| |reflexivity|]; repeat constructor; cbn; intuition discriminate|].
  split; [split; [cbn; lia|reflexivity]|]. eexists.
  split; [split; [discriminate|exists 0%nat; vm_compute; reflexivity]|]. repeat split; reflexivity.
Qed.
