(** * C35: stack heights *)
From Coq Require Import Permutation.
From Verif Require Import Base Token Lexer Values Heap Code CodeSpec CodeProofs Syntax VM VMBasics VMSpec VMInv VMFrame VMProofs
  Symbols Parser Resolve Compile Layout LayoutProofs CompileProofs TableInv ParserInv Host LayTable Whole Props_Compile HeightSpec HeightProofs.
Local Open Scope nat_scope.

(** ** The compiler's side *)
Lemma ready_loaded s : ready s -> loaded [] s /\ fits_c s.
Proof. intros (n & mods & file & src & ts & s0 & R & Hm & E & F). split; auto. apply (compile_reachable _ _ _ _ _ _ _ R Hm E). Qed.

Lemma code_heights {H} s (callees : nat -> list value -> fprog H) props :
  ready s -> Forall (plain_s (k_tbl s) false) (k_hist s) ->
  exists ht, heights (k_tbl s) (k_code s) (m_fpcs (machine_of s callees props)) ht.
Proof.
  intros R P. destruct (ready_laid _ R) as (b & b' & p & L & Ha & _). destruct (ready_loaded _ R) as (Ld & Fc & Fg & Ff & Fx).
  pose proof (ld_good _ _ Ld) as G. set (t := k_tbl s) in *. set (C := k_code s) in *.
  assert (HK : forall y i a l r, In y (tb_syms t) -> sy_body y = SyFunc i a l r -> fun_number t i /\ (Z.of_nat i < 2^32)%Z).
  { intros y i a l r I B. split; [exists y, a, l, r; auto|].
    pose proof (count_of _ _ (NFun, i) G I ltac:(rewrite B; left; reflexivity)) as X. cbn in X. lia. }
  assert (HX : forall y i a va r c, In y (tb_syms t) -> sy_body y = SyForeign i a va r c -> (Z.of_nat i < 2^32)%Z).
  { intros y i a va r c I B. pose proof (count_of _ _ (NForeign, i) G I ltac:(rewrite B; left; reflexivity)) as X. cbn in X. lia. }
  assert (HF : forall id fs, sfields t id = Some fs -> length fs <= 255).
  { intros id fs E. unfold sfields in E. destruct (sym_at t id) as [[yi yn []]|] eqn:Y; try discriminate.
    destruct defined; try discriminate. injection E as ->. apply (good_at _ _ _ _ G Y). }
  assert (Sg : tseg t C (entry t s) (fun_number t) (fun _ _ => False) (map fst (flat_map bodies (k_hist s))) 0 b 0 0).
  { eapply block_seg; [|exact L| |apply no_exits]; auto.
    - apply Forall_forall. intros x _. apply stmt_seg; auto.
    - apply all_forall. exact P. }
  destruct Sg as (m & D & U & I0 & St & Fn).
  exists (fun pc k => m pc k \/ (pc = b /\ k = 0)). constructor.
  - intros pc h h' [A|(A & ->)] [A'|(A' & ->)]; eauto; apply D in A || apply D in A'; lia.
  - destruct I0 as [I0|(E & _)]; auto.
  - intros i (y & a & l & r & Iy & By).
    assert (If : In (sy_id y) (map fst (flat_map bodies (k_hist s)))).
    { pose proof (ld_funs _ _ Ld) as Pm. rewrite app_nil_r in Pm. eapply Permutation_in; [exact Pm|].
      unfold funs. apply in_flat_map. exists y. split; auto. rewrite By. left. reflexivity. }
    pose proof (proj1 (Forall_forall _ _) Fn _ If) as (e & (j & Ej & Nj) & M0).
    assert (j = i). { unfold findex in Ej. rewrite (in_sym_at _ _ (gd_unique _ _ G) Iy) in Ej. destruct y as [yi yn yb]. cbn [sy_body] in By. subst yb. congruence. }
    subst j. exists e. split; [|auto]. cbn [machine_of m_fpcs]. rewrite nth_error_map, Nj. reflexivity.
  - intros pc k [Hk|(-> & ->)].
    + destruct (St _ _ Hk) as (i & n & A & B & Ck & E). exists i, n. split; auto. split; auto. split; [|exact Ck].
      intros pc' Ip. destruct (E pc' Ip) as [?|[(-> & E2)|[]]]; auto.
    + exists IHalt, b'. split; [exact Ha|]. cbn. split; [lia|]. split; [tauto|exact I].
Qed.

(** ** The machine's side *)
Lemma cut_length s n s' : cut s n = Ok s' -> length s' = n /\ n <= length s.
Proof. unfold cut. destruct (Nat.leb_spec n (length s)); intros E; inversion E; subst. rewrite skipn_length. lia. Qed.

Lemma exec_height {H} (M : machine H) callf (CC : forall t f a v t', callf t f a = Ok (v, t') -> ctl_same t t') i (t t' : thread H) :
  straight i = true -> exec M callf i t = Ok t' -> pops i <= length (t_stk t) /\ length (t_stk t') = length (t_stk t) - pops i + pushes i.
Proof.
  intros S E.
  destruct i; try discriminate S; cbn [exec pops pushes] in *;
    try (apply push_ctl in E; destruct E as (_ & _ & _ & ->); cbn [length]; lia).
  - destruct (room _ _); inversion E; subst; cbn. rewrite app_length, repeat_length. lia.
  - destruct (_ <? _)%Z; [discriminate|]. destruct (nth_error _ _); [|discriminate].
    apply push_ctl in E. destruct E as (_ & _ & _ & ->). cbn [length]; lia.
  - destruct (_ <? _)%Z; [discriminate|]. destruct (nth_error _ _); [|discriminate].
    apply push_ctl in E. destruct E as (_ & _ & _ & ->). cbn [length]; lia.
  - unfold oassert in E. destruct (_ <? _)%Z; [|discriminate]. destruct (_ <=? _) eqn:Hle; [apply Nat.leb_le in Hle|discriminate].
    unfold alloc in E. apply push_ctl in E. destruct E as (_ & _ & _ & ->). cbn. rewrite skipn_length. lia.
  - destruct (t_stk t) as [|[] s]; try discriminate.
    destruct (hget (t_heap t) id) as [[? ? []]|]; try discriminate.
    destruct (nth_error _ _); inversion E; subst; cbn; lia.
  - destruct (t_stk t) as [|[] [|v s]]; try discriminate.
    destruct (hget (t_heap t) id) as [[? ? []]|]; try discriminate.
    destruct (_ <? _); inversion E; subst; cbn; lia.
  - destruct (t_stk t) as [|b [|a s]]; try discriminate. obinv E. inversion E; subst; cbn; lia.
  - destruct (t_stk t) as [|a s]; try discriminate. obinv E. inversion E; subst; cbn; lia.
  - destruct (t_stk t) as [|a s]; try discriminate. obinv E. inversion E; subst; cbn; lia.
  - destruct (t_stk t) as [|b [|a s]]; try discriminate. obinv E. inversion E; subst; cbn; lia.
  - destruct (t_stk t) as [|a s]; try discriminate. obinv E. inversion E; subst; cbn; lia.
  - obinv E. destruct r as [v t1]. apply pop_ctl in Em. destruct Em as (_ & _ & _ & ->).
    unfold glob_put in E. destruct (t_globs t1); [|discriminate].
    destruct (_ <? _); inversion E; subst; cbn; lia.
  - obinv E. apply push_ctl in E. destruct E as (_ & _ & _ & ->). cbn; lia.
  - destruct (_ <=? _) eqn:Hle; [apply Nat.leb_le in Hle|discriminate]. destruct (nth_error _ _); [|discriminate].
    obinv E. destruct r as [v t1]. obinv E. inversion E; subst. apply cut_length in Em0. cbn. lia.
  - obinv E. apply push_ctl in E. destruct E as (_ & _ & _ & ->). cbn; lia.
  - obinv E. apply push_ctl in E. destruct E as (_ & _ & _ & ->). cbn; lia.
  - obinv E. destruct r as [v t1]. obinv E. apply pop_ctl in Em. destruct Em as (_ & _ & _ & ->).
    inversion E; subst; cbn. unfold set_slot in Em0. destruct (_ <? _); inversion Em0; subst. rewrite update_length. cbn. lia.
Qed.

Section Dynamic.
Context {H : Type} (M : machine H) (poll : nat -> nat -> bool) (t0 : tbl) (ht : Z -> nat -> Prop).
Hypothesis Hh : heights t0 (m_code M) (m_fpcs M) ht.

Fixpoint frames_ok (d fp : nat) (frs : list frame) : Prop :=
  length frs <= d \/
  match frs with
  | [] => True
  | f :: fr => f_nargs f <= fp /\ (exists h, ht (f_pc f) h /\ fp - f_nargs f = f_fp f + h) /\ frames_ok d (f_fp f) fr
  end.

Definition inv (d : nat) (t : thread H) : Prop :=
  (t_pc t < 0)%Z \/ (exists h, ht (t_pc t) h /\ length (t_stk t) = t_fp t + h) /\ frames_ok d (t_fp t) (t_frames t).

Lemma inv_ok d t : inv d t -> stack_ok M ht t.
Proof.
  intros [N|((h & A & B) & _)] P; [lia|]. destruct (hs_step _ _ _ _ Hh _ _ A) as (i & nx & D & Pp & _).
  exists i, nx, h. unfold at_instr. auto.
Qed.

Lemma pop_frame_inv d (t t' : thread H) : pop_indir t = Ok t' -> frames_ok d (t_fp t) (t_frames t) ->
  length (t_frames t') < d \/ inv d t'.
Proof.
  unfold pop_indir. intros E Fo. destruct (t_frames t) as [|f fr] eqn:Ef; [discriminate|].
  destruct (Nat.leb_spec (f_nargs f) (t_fp t)); [|discriminate].
  destruct (cut (t_stk t) (t_fp t)); try discriminate. destruct (cut (t_stk t) (t_fp t - f_nargs f)) eqn:Ec; inversion E; subst.
  cbn [t_frames with_ctl]. cbn [frames_ok] in Fo. destruct Fo as [Fo|(_ & (h & A & B) & Fo)]; [left; cbn in Fo; lia|].
  right. right. cbn. split; auto. exists h. split; auto. apply cut_length in Ec. lia.
Qed.

Lemma step_inv d t b t' : inv d t -> d <= length (t_frames t) -> cycles M poll t (Ok (b, t')) ->
  length (t_frames t') < d \/ inv d t'.
Proof.
  intros [N|((h & A & B) & Fo)] Ld C.
  { right. left. destruct (halted_stays M poll t N) as (_ & f & E). destruct C as (_ & f' & E').
    unfold execute_cycle, cycle in E'. destruct (Z.ltb_spec (t_pc t) 0); [|lia]. inversion E'; subst. exact N. }
  destruct (Z.ltb_spec (t_pc t) 0) as [N|N].
  { right. left. destruct C as (_ & f' & E').
    unfold execute_cycle, cycle in E'. destruct (Z.ltb_spec (t_pc t) 0); [|lia]. inversion E'; subst. exact N. }
  destruct (hs_step _ _ _ _ Hh _ _ A) as (i & nx & D & P & S & Kc).
  destruct (cycles_inv M poll t i nx b t' (conj N D) C) as (_ & fuel & t1 & E & G).
  assert (Fr : t_pc t' = t_pc t1 /\ t_frames t' = t_frames t1 /\ t_fp t' = t_fp t1 /\ t_stk t' = t_stk t1).
  { destruct (poll _ _); [apply gc_frame in G; tauto|]. subst; auto. }
  assert (W : length (t_frames t1) < d \/ inv d t1).
  2:{ unfold inv in *. destruct Fr as (-> & -> & -> & ->). exact W. }
  clear G Fr C. pose proof (fun t f a v t' => call_ctl M poll fuel t f a v t') as CC.
  destruct (straight i) eqn:St.
  { right. right. destruct (exec_straight M _ CC _ _ _ St E) as (E1 & E2 & E3). destruct (exec_height M _ CC _ _ _ St E) as (E4 & E5).
    cbn [with_pc t_pc t_fp t_frames t_stk] in *. rewrite E1, E2, E3. split; auto. exists (h - pops i + pushes i). split; [|lia].
    apply S. destruct i; try discriminate St; left; reflexivity. }
  destruct i; try discriminate St; cbn [exec] in E; cbn [pops pushes succs] in *.
  - inversion E; subst. right. right. cbn. split; auto. exists (h - 0 + 0). split; [apply S; left; auto|lia].
  - obinv E. destruct r as [v u2]. obinv E. apply pop_ctl in Em. cbn in Em. destruct Em as (E1 & E2 & E3 & E4). inversion E; subst.
    assert (L1 : length (t_stk u2) = t_fp t + (h - 1 + 0)) by (rewrite E4 in B; cbn in B; lia).
    right. right. destruct r; cbn; rewrite ?E1, E2, E3; split; auto; exists (h - 1 + 0); (split; [|exact L1]); apply S; cbn; auto.
  - obinv E. unfold push_indir, oassert in Em. destruct (_ <? _); [|discriminate]. inversion Em; subst.
    destruct (hs_fun _ _ _ _ Hh _ Kc) as (e & Ne & He). rewrite Ne in E. inversion E; subst. right. right. cbn [t_pc t_stk t_fp t_frames with_pc with_ctl].
    split; [exists 0; split; auto|]. cbn [frames_ok]. right. cbn [f_nargs f_pc f_fp]. split; [lia|]. split; auto.
    exists (h - Z.to_nat nargs + 0). split; [apply S; left; auto|lia].
  - eapply pop_frame_inv; [exact E|exact Fo].
  - obinv E. destruct r as [v u2]. apply pop_ctl in Em. cbn in Em. destruct Em as (E1 & E2 & E3 & E4).
    eapply pop_frame_inv; [exact E|]. cbn. rewrite E2, E3. exact Fo.
  - inversion E; subst. right. left. cbn. lia.
Qed.

Lemma cycled_inv t t' : cycled M poll t t' -> inv 0 t -> inv 0 t'.
Proof. induction 1 as [t|t b t1 t' C _ IH]; auto. intros I. destruct (step_inv 0 _ _ _ I ltac:(lia) C); [lia|auto]. Qed.

Lemma inside_inv d t t' : inside M poll d t t' -> inv (S d) t -> d < length (t_frames t') -> inv (S d) t'.
Proof.
  induction 1 as [t|t t1 t' L C Hi IH]; auto. intros I L'. destruct (step_inv (S d) _ _ _ I L C) as [X|X]; [|auto].
  inversion Hi; subst; lia.
Qed.

Lemma start_inv w : inv 0 (start_thread M (init_thread w)).
Proof. right. cbn. split; [exists 0; split; [apply Hh|reflexivity]|]. left. lia. Qed.

Lemma enter_inv u f args t : fun_number t0 (Z.to_nat f) -> enter_call M u f args = Ok t -> inv (S (length (t_frames u))) t.
Proof.
  intros Kf E. unfold enter_call, oassert in E. destruct (0 <=? f)%Z; [|discriminate]. destruct (room _ _); [|discriminate].
  destruct (hs_fun _ _ _ _ Hh _ Kf) as (e & Ne & He). rewrite Ne in E. unfold push_indir, oassert in E.
  destruct (_ <? _); [|discriminate]. inversion E; subst. right. cbn [t_pc t_stk t_fp t_frames with_pc with_ctl with_stk]. split.
  - exists 0. split; auto.
  - cbn [frames_ok length]. left. unfold alloc_globals. destruct (t_globs u); cbn; lia.
Qed.
End Dynamic.

(** ** C35 *)

(** The compiler determines one stack height for every reachable address of the
    code, such that every instruction finds its operands and leaves the height of
    the instructions after it; and whenever a thread is about to execute an
    instruction, in the program or in a function called by the host at any depth,
    its stack has exactly this height above the frame base.  Calls beyond the
    depth limit abort ([call_depth_limit], Props_VM.v). *)
Theorem stack_heights : forall {H} s (callees : nat -> list value -> fprog H) props,
  ready s -> Forall (plain_s (k_tbl s) false) (k_hist s) ->
  let M := machine_of s callees props in
  exists ht, heights (k_tbl s) (k_code s) (m_fpcs M) ht /\
    (forall poll w t, cycled M poll (start_thread M (init_thread w)) t -> stack_ok M ht t) /\
    (forall poll u f args t1 t, fun_number (k_tbl s) (Z.to_nat f) -> enter_call M u f args = Ok t1 ->
       inside M poll (length (t_frames u)) t1 t -> length (t_frames u) < length (t_frames t) -> stack_ok M ht t).
Proof.
  intros H s callees props R P M. destruct (code_heights s callees props R P) as (ht & Hh). exists ht. fold M in Hh. split; [exact Hh|]. split.
  - intros poll w t C. apply (inv_ok M (k_tbl s) ht Hh 0). exact (cycled_inv M poll _ ht Hh _ _ C (start_inv M _ ht Hh w)).
  - intros poll u f args t1 t Kf E I L. eapply inv_ok; [exact Hh|]. exact (inside_inv M poll _ ht Hh _ _ _ I (enter_inv M _ ht Hh _ _ _ _ Kf E) L).
Qed.
Print Assumptions stack_heights.

Lemma plain_demo : Forall (plain_s (k_tbl demo_state) false) (k_hist demo_state).
Proof.
  vm_compute. repeat (first [apply Forall_nil|apply Forall_cons|split|exact I|intros ? [= <-]|discriminate|intros; discriminate|auto 10]).
Qed.

Example height_case := stack_heights demo_state demo_callees demo_natives demo_ready plain_demo.

(** ** C40: foreign functions get the arguments they were bound with *)

(** Whenever a thread of a compiled program is about to call a foreign function,
    in the program or in a function called by the host at any depth, the number
    of the function is that of exactly one function bound by the host, the
    callback is the one bound with it, and it is given as many values as it has
    parameters, or at least as many if it was bound with [...]; all of them were
    pushed by the running function. *)
Definition called_as_bound {H} (t : tbl) (callees : nat -> list value -> fprog H) (M : machine H) (th : thread H) : Prop :=
  forall n f next, at_instr M th (ICallF n f) next ->
  exists y params va ret c, In y (tb_syms t) /\ sy_body y = SyForeign (Z.to_nat f) params va ret c /\
    (forall y' p' v' r' c', In y' (tb_syms t) -> sy_body y' = SyForeign (Z.to_nat f) p' v' r' c' -> y' = y) /\
    nth_error (m_foreign M) (Z.to_nat f) = Some (callees c) /\
    (Z.to_nat n = length params \/ va = true /\ length params <= Z.to_nat n) /\
    t_fp th + Z.to_nat n <= length (t_stk th).
Theorem foreign_arguments : forall {H} s (callees : nat -> list value -> fprog H) props,
  ready s -> Forall (plain_s (k_tbl s) false) (k_hist s) ->
  let M := machine_of s callees props in
  (forall poll w t, cycled M poll (start_thread M (init_thread w)) t -> called_as_bound (k_tbl s) callees M t) /\
  (forall poll u f args t1 t, fun_number (k_tbl s) (Z.to_nat f) -> enter_call M u f args = Ok t1 ->
     inside M poll (length (t_frames u)) t1 t -> length (t_frames u) < length (t_frames t) -> called_as_bound (k_tbl s) callees M t).
Proof.
  intros H s callees props R P M. destruct (stack_heights s callees props R P) as (ht & Hh & A & B). fold M in A, B, Hh.
  enough (G : forall t, stack_ok M ht t -> called_as_bound (k_tbl s) callees M t) by (split; intros; eapply G; eauto).
  intros t So n f next At. destruct So as (i & nx & h & At' & Ht & L & Pp); [exact (proj1 At)|].
  destruct At as (_ & D). destruct At' as (_ & D'). rewrite D in D'. injection D' as <- <-. cbn [pops] in Pp.
  destruct (hs_step _ _ _ _ Hh _ _ Ht) as (i & nx & D' & _ & _ & K). change (m_code M) with (k_code s) in D. rewrite D in D'. injection D' as <- <-.
  destruct K as (y & params & va & ret & c & Iy & By & Ar). exists y, params, va, ret, c. split; auto. split; auto.
  split; [|split; [|split; [exact Ar|lia]]]; [|exact (proj2 (SimExpr.ln_foreign _ _ _ (ready_linked s callees props R) y _ _ _ _ _ Iy By))].
  intros y' p' v' r' c' Iy' By'. apply (Whole.keys_unique (tb_syms (k_tbl s)) (gd_keys _ _ (ld_good _ _ (proj1 (ready_loaded _ R)))) y' y (NForeign, Z.to_nat f)); auto; [rewrite By'|rewrite By]; left; reflexivity.
Qed.
Print Assumptions foreign_arguments.
Example foreign_case := foreign_arguments demo_state demo_callees demo_natives demo_ready plain_demo.

(** Without "every field initialised" there are no heights: the compiler accepts
    a [new] with too few values, whose code takes operands that were never
    pushed (from below the frame base). *)
Definition few_src : text := text_of "struct P { x: int y: int } p := new P{1}".
Definition deep_src : text := text_of "func f(n: int): int { a := n b := a return f(b) } f(0)".
Definition state_of (src : text) : kst :=
  match create_state with COk tt s0 => match host 20 (HMacro (text_of "m")) s0 with COk tt s1 =>
    match compile_string 100 (fun _ _ _ _ => CAbort) None src s1 with COk _ s => s | _ => init_kst end | _ => init_kst end | _ => init_kst end.
Definition trees_of (src : text) : list tstmt :=
  match create_state with COk tt s0 => match host 20 (HMacro (text_of "m")) s0 with COk tt s1 =>
    match compile_string 100 (fun _ _ _ _ => CAbort) None src s1 with COk ts _ => ts | _ => [] end | _ => [] end | _ => [] end.
Definition few_state : kst := Eval vm_compute in state_of few_src.
Definition few_ts : list tstmt := Eval vm_compute in trees_of few_src.
Definition deep_state : kst := Eval vm_compute in state_of deep_src.
Definition deep_ts : list tstmt := Eval vm_compute in trees_of deep_src.
Lemma few_compiles : compile_string 100 (fun _ _ _ _ => CAbort) None few_src small_s1 = COk few_ts few_state.
Proof. vm_cast_no_check (eq_refl (COk few_ts few_state)). Qed.
Lemma deep_compiles : compile_string 100 (fun _ _ _ _ => CAbort) None deep_src small_s1 = COk deep_ts deep_state.
Proof. vm_cast_no_check (eq_refl (COk deep_ts deep_state)). Qed.

Lemma ready_small src ts s' : compile_string 100 (fun _ _ _ _ => CAbort) None src small_s1 = COk ts s' -> fits_c s' -> ready s'.
Proof.
  intros E F.
  assert (M : forall (m : text) (args : list text) (as_ : option text) (x : kst) b x', (CAbort : cres kst bool) = COk b x' -> steps x x') by discriminate.
  exact (ready_by_host 20 (HMacro (text_of "m")) 100 (fun _ _ _ _ => CAbort) None src create_state small_s1 ts s' eq_refl M small_host E F).
Qed.

Theorem operands_missing_refuted : exists s, ready s /\
  forall fpcs ht, ~ heights (k_tbl s) (k_code s) fpcs ht.
Proof.
  exists few_state. split. { apply (ready_small few_src few_ts _ few_compiles). vm_compute. repeat split. }
  intros fpcs ht [_ St _ Sp].
  destruct (Sp _ _ St) as (i & n & D & P & S & _). vm_compute in D. injection D as <- <-.
  specialize (S _ (or_introl eq_refl)). cbn in S.
  destruct (Sp _ _ S) as (i & n & D & P2 & S2 & _). vm_compute in D. injection D as <- <-.
  vm_compute in P2. lia.
Qed.
Print Assumptions operands_missing_refuted.

(** The height is bounded by no check: recursion overruns the stack of 128
    values before it reaches the depth limit. *)
Theorem stack_overflow_refuted : exists s, ready s /\ Forall (plain_s (k_tbl s) false) (k_hist s) /\
  forall (callees : nat -> list value -> fprog unit) props,
    let M := machine_of s callees props in runs M real_poll (start_thread M (init_thread tt)) UB.
Proof.
  exists deep_state. split; [apply (ready_small deep_src deep_ts _ deep_compiles); vm_compute; repeat split|]. split.
  - vm_compute. repeat (first [apply Forall_nil|apply Forall_cons|split|exact I|auto 10]).
  - intros callees props M. split; [discriminate|]. exists 1000. vm_compute. reflexivity.
Qed.
Print Assumptions stack_overflow_refuted.
