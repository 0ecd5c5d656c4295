(** * C17-C19: what compiled code computes *)
From Verif Require Import Base Token Lexer Float64 Values Heap Code CodeSpec CodeProofs Syntax VM VMBasics VMSpec VMProofs Source
  Symbols Parser Resolve Layout LayoutProofs Simulate SimExpr SimEval SimStmt GCSpec GCTransSpec Props_GC
  Compile CompileProofs TableInv ParserInv Host LayTable Whole.
Local Open Scope nat_scope.

(** A state right after a successful compile, reached from [Tiny_CreateState] by
    any sequence of host operations and successful compiles, where [use] macros
    do such operations too.  [fits_c]: less than 2^31 bytes of code. *)
Definition ready (s : kst) : Prop :=
  exists n mods file src ts s0, reachable s0 /\
    (forall m args as_ x b x', mods m args as_ x = COk b x' -> steps x x') /\
    compile_string n mods file src s0 = COk ts s /\ fits_c s.

Lemma ready_linked {H} s (callees : nat -> list value -> fprog H) props : ready s ->
  linked (program_of s callees) (machine_of s callees props) (entry (k_tbl s) s).
Proof.
  intros (n & mods & file & src & ts & s0 & R & Hm & E & F). destruct (compile_reachable _ _ _ _ _ _ _ R Hm E).
  apply loaded_linked; auto.
Qed.

Lemma ready_laid s : ready s -> exists b b' p,
  lay_stmts (map (lay_stmt (k_tbl s) (k_code s) (entry (k_tbl s) s) anywhere) (k_hist s)) 0 b p /\
  at_i (k_code s) b IHalt b' /\ Forall (ref_ok (k_tbl s) 0) (flat_map srefs (k_hist s)).
Proof.
  intros (n & mods & file & src & ts & s0 & R & Hm & E & Fc & _).
  destruct (compile_reachable _ _ _ _ _ _ _ R Hm E) as (L & _ & pre & Ec). pose proof (ld_code _ _ L) as Cd.
  rewrite Ec, drop_halt_app in Cd. rewrite Ec, plen_app in Fc. cbn in Fc. destruct (Cd ltac:(lia)) as (p & Q).
  exists (plen pre), (plen (k_code s)), p. split; [|split].
  - change (lay_stmt (k_tbl s) pre (entry (k_tbl s) s) anywhere (TSBlock 0 (k_hist s)) 0 (plen pre) p) in Q.
    change (lay_stmt (k_tbl s) (k_code s) (entry (k_tbl s) s) anywhere (TSBlock 0 (k_hist s)) 0 (plen pre) p).
    eapply stmt_agree; [exact Q|]. rewrite Ec. apply (proj2 (ext_app pre [43%Z])).
  - rewrite Ec. exact (gen_at pre IHalt I).
  - eapply Forall_impl; [|exact (ld_refs _ _ L)]. intros [] X; cbn in *; try exact I; discriminate.
Qed.

(** ** C19 *)

(** The statements compiled into the state are [k_hist s], in the order of their
    compiles.  A thread started on the compiled program ends as the interpreter
    of Source.v says, with the same globals, the same objects and the same host
    memory (in which foreign functions leave whatever the host can observe of
    their calls); a program that runs on for [n] steps there runs for [n]
    instructions here. *)
Theorem program_runs : forall {H} s (callees : nat -> list value -> fprog H) props w n, ready s ->
  let P := program_of s callees in
  let M := machine_of s callees props in
  let t := start_thread M (init_thread w) in
  match exec_top P n (k_hist s) (start_sst P w) with
  | Ok s' => exists t', runs M no_poll t (Ok t') /\ t_pc t' = (-1)%Z /\
      t_globs t' = Some (s_globs s') /\ t_heap t' = s_heap s' /\ t_host t' = s_host s' /\ t_stk t' = [] /\ t_frames t' = []
  | Abort => runs M no_poll t Abort
  | UB => True
  | Fuel => run M no_poll n t = Fuel
  end.
Proof.
  intros H s callees props w n R P M t. destruct (ready_laid _ R) as (b & b' & p & L & Hh & Rf).
  pose proof (run_ok P M _ (ready_linked s callees props R) n (k_hist s) b b' p (start_sst P w) t L Hh Rf) as X.
  assert (Sh : shared (start_sst P w) t) by (split; [|split; [|split]]; reflexivity).
  specialize (X Sh eq_refl eq_refl eq_refl eq_refl).
  destruct (exec_top P n (k_hist s) (start_sst P w)); auto.
  destruct X as (t' & A & (B1 & B2 & B3 & B4) & C & D & F). exists t'. auto 10.
Qed.
Print Assumptions program_runs.

(** With the collector running whenever it likes: a run that ends ends like the
    source. *)
Theorem program_runs_collected : forall {H} s (callees : nat -> list value -> fprog H) props w poll, ready s ->
  let P := program_of s callees in
  let M := machine_of s callees props in
  let t := start_thread M (init_thread w) in
  silent_finalizers M ->
  (forall t' n, runs M poll t (Ok t') ->
     match exec_top P n (k_hist s) (start_sst P w) with
     | Ok s' => t_globs t' = Some (s_globs s') /\ t_host t' = s_host s'
     | Abort => False
     | UB | Fuel => True
     end) /\
  (forall n, runs M poll t Abort ->
     match exec_top P n (k_hist s) (start_sst P w) with Ok _ => False | _ => True end).
Proof.
  intros H s callees props w poll R P M t Sil.
  assert (G : same_but_garbage t t) by (unfold same_but_garbage; repeat split; auto).
  destruct (collection_sound M poll t t Sil (proj1 (started_no_dangling M w)) G) as (A & B).
  split.
  - intros t' n E. destruct (A _ E) as (u & Eu & (_ & _ & _ & _ & _ & Gg & _ & Gh & _)).
    pose proof (program_runs s callees props w n R) as X. cbv zeta in X. fold P M t in X.
    destruct (exec_top P n (k_hist s) (start_sst P w)) as [s'| | |]; auto.
    + destruct X as (u' & Eu' & _ & Xg & _ & Xh & _). injection (runs_det _ _ _ _ _ Eu Eu') as <-.
      split; congruence.
    + pose proof (runs_det _ _ _ _ _ Eu X). discriminate.
  - intros n E. specialize (B E). pose proof (program_runs s callees props w n R) as X. cbv zeta in X. fold P M t in X.
    destruct (exec_top P n (k_hist s) (start_sst P w)) as [s'| | |]; auto. destruct X as (u' & Eu' & _).
    pose proof (runs_det _ _ _ _ _ B Eu'). discriminate.
Qed.
Print Assumptions program_runs_collected.

(** ** C17 *)

(** A thread executing code of a function with [args] and [locals], [temps]
    pending operands on top of them, [below] what the callers have on the stack *)
Definition executing {H} (t : thread H) (pc : Z) (temps : list value) (fe : fenv) (below : list value) (frames : list frame)
  (s : sst H) : Prop :=
  t_pc t = pc /\ t_stk t = temps ++ rev (e_locals fe) ++ rev (e_args fe) ++ below /\
  t_fp t = length (e_args fe) + length below /\ t_frames t = frames /\
  t_globs t = Some (s_globs s) /\ t_heap t = s_heap s /\ t_next t = s_next s /\ t_host t = s_host s.

(** [cur]: the function the code belongs to ([None]: outside functions) *)
Definition scope_of (T : tbl) (cur : option nat) (fe : fenv) : Prop :=
  match cur with
  | None => e_args fe = []
  | Some f => exists name i ps ls r, sym_at T f = Some (mkSym f name (SyFunc i ps ls r)) /\ length (e_args fe) = length ps
  end.

Lemma scope_refs T cur fe rs : good full T -> scope_of T cur fe -> Forall (in_scope cur) rs ->
  Forall (ref_ok T (length (e_args fe))) rs.
Proof.
  intros G Sc F. eapply Forall_impl; [|exact F]. intros r Sr. destruct cur as [f|].
  - destruct Sc as (name & i & ps & ls & rt & Y & E). rewrite E. eapply scope_ref_ok; eauto.
  - destruct r; cbn in *; try exact I; discriminate.
Qed.

Lemma ready_good s : ready s -> good full (k_tbl s).
Proof.
  intros (n & mods & file & src & ts & s0 & R & Hm & E & _). destruct (compile_reachable _ _ _ _ _ _ _ R Hm E) as (L & _). apply L.
Qed.

Lemma executing_inst {H} (P : prog H) t pc temps fe below frames s : executing t pc temps fe below frames s ->
  length (t_stk t) <= p_room P ->
  inst P (mkK below frames (length (e_args fe)) (length (e_locals fe))) pc temps fe s t /\
  hgt (mkK below frames (length (e_args fe)) (length (e_locals fe))) temps = length (t_stk t).
Proof.
  intros (A & B & C & D & F & G & I & J) R.
  assert (Hh : hgt (mkK below frames (length (e_args fe)) (length (e_locals fe))) temps = length (t_stk t)).
  { unfold hgt. cbn. rewrite B, !app_length, !rev_length. reflexivity. }
  split; auto. split; [split; reflexivity|]. split; [rewrite Hh; exact R|].
  exists (t_ret t), (t_nobj t), (t_max t). unfold conf. destruct t. cbn in *. subst. reflexivity.
Qed.

Lemma inst_executing {H} (P : prog H) K pc temps fe s t : inst P K pc temps fe s t ->
  executing t pc temps fe (k_below K) (k_frames K) s /\ length (t_stk t) <= p_room P.
Proof.
  intros (E & R & ret & nobj & mx & ->). split; [repeat split; reflexivity|]. rewrite conf_len by auto. exact R.
Qed.

(** Code of the expression [e], wherever the compiler put it in the program
    ([k], [k']: the compiler's state before and after).  [star]: the machine gets
    there by executing instructions, never returning from the current function. *)
Theorem expression_computes : forall {H} s (callees : nat -> list value -> fprog H) props n cur e k k' temps fe below frames st t,
  ready s ->
  let P := program_of s callees in
  let M := machine_of s callees props in
  same_shape (k_tbl s) (k_tbl k) -> compile_expr e k = COk tt k' -> (plen (k_code k') < 2^31)%Z ->
  agree (plen (k_code k)) (plen (k_code k')) (k_code k') (k_code s) ->
  Forall (in_scope cur) (erefs e) -> scope_of (k_tbl s) cur fe ->
  executing t (plen (k_code k)) temps fe below frames st -> length (t_stk t) <= 128 ->
  match eval P (enter_fn P n) (length frames) fe e (length (t_stk t)) st with
  | Ok (v, st') => exists t', star M (length frames) t t' /\
      executing t' (plen (k_code k')) (v :: temps) fe below frames st' /\ length (t_stk t') <= 128
  | Abort => exists t', star M (length frames) t t' /\ cycles M no_poll t' Abort
  | UB => True
  | Fuel => forall floor, Simulate.below (length frames) floor -> loop M no_poll n floor t = Fuel
  end.
Proof.
  intros H s callees props n cur e k k' temps fe below frames st t R P M Sh E Lt Ag Sc Sf Ex Rm.
  destruct (compile_expr_ok (k_tbl s) e k tt k' Sh E) as (_ & L). specialize (L Lt).
  apply (lay_agree (k_tbl s) e _ (k_code s)) in L; auto.
  pose proof (ready_linked s callees props R) as LK. fold P M in LK.
  destruct (executing_inst P t _ _ _ _ _ _ Ex Rm) as (IN & Hh).
  set (K := mkK below frames (length (e_args fe)) (length (e_locals fe))) in *.
  pose proof (eval_ok P M _ LK n (enter_fn P n) (enter_fn_ok P M _ LK n) e K fe) as X.
  specialize (X (scope_refs _ _ _ _ (ready_good _ R) Sf Sc) _ _ temps st t L IN). rewrite Hh in X.
  change (dep K) with (length frames) in X.
  destruct (eval P (enter_fn P n) (length frames) fe e (length (t_stk t)) st) as [[v st']| | |]; cbn [sim] in X; auto.
  - destruct X as (t' & S & IN'). apply inst_executing in IN' as (A & B). exists t'. auto.
  - destruct X as (t' & S & _ & A). eauto.
Qed.
Print Assumptions expression_computes.

(** ** C18 *)

(** The same for a statement outside of which no [break] or [continue] leads and
    that defines no function; [infun]: inside a function, so that it may return. *)
Theorem statement_executes : forall {H} s (callees : nat -> list value -> fprog H) props n cur file st k k' fe below frames x t infun,
  ready s ->
  let P := program_of s callees in
  let M := machine_of s callees props in
  same_shape (k_tbl s) (k_tbl k) -> compile_stmt file st k = COk [] k' -> bodies st = [] -> (plen (k_code k') < 2^31)%Z ->
  agree (plen (k_code k)) (plen (k_code k')) (k_code k') (k_code s) ->
  Forall (in_scope cur) (srefs st) -> scope_of (k_tbl s) cur fe ->
  (infun = true -> exists f fr, frames = f :: fr /\ f_nargs f = length (e_args fe)) ->
  executing t (plen (k_code k)) [] fe below frames x -> length (t_stk t) <= 128 ->
  match Source.exec P (enter_fn P n) n infun (length frames) (length (t_stk t)) st fe x with
  | Ok (Go, fe', x') => exists t', star M (length frames) t t' /\
      executing t' (plen (k_code k')) [] fe' below frames x' /\ length (t_stk t') <= 128
  | Ok (Ret v, _, x') => exists t' f fr, star M (length frames) t t' /\ frames = f :: fr /\
      t_pc t' = f_pc f /\ t_fp t' = f_fp f /\ t_stk t' = below /\ t_frames t' = fr /\ t_ret t' = v /\
      t_globs t' = Some (s_globs x') /\ t_heap t' = s_heap x' /\ t_host t' = s_host x'
  | Ok (Brk, _, _) | Ok (Cont, _, _) => False
  | Abort => exists t', star M (length frames) t t' /\ cycles M no_poll t' Abort
  | UB => True
  | Fuel => forall floor, Simulate.below (length frames) floor -> loop M no_poll n floor t = Fuel
  end.
Proof.
  intros H s callees props n cur file st k k' fe below frames x t infun R P M Sh E Nb Lt Ag Sc Sf IFn Ex Rm.
  pose proof (ready_good _ R) as G.
  destruct (compile_stmt_ok (k_tbl s) (gd_unique _ _ G) file st k [] k' Sh) as (_ & _ & L); auto.
  { unfold ids. rewrite Nb. constructor. }
  specialize (L Lt).
  pose proof (ready_linked s callees props R) as LK. fold P M in LK.
  assert (L' : lay_stmt (k_tbl s) (k_code s) (entry (k_tbl s) s) (fun _ _ => False) st (plen (k_code k)) (plen (k_code k')) []).
  { apply (proj2 (stmt_move (k_tbl s) (entry (k_tbl s) s) st anywhere (fun _ _ => False) (k_code k') (k_code s))).
    - revert L. apply stmt_entries. rewrite Nb. intros f b [].
    - apply agree_untouched. exact Ag.
    - intros kk y aa bb []. }
  destruct (executing_inst P t _ _ _ _ _ _ Ex Rm) as (IN & Hh).
  set (K := mkK below frames (length (e_args fe)) (length (e_locals fe))) in *.
  pose proof (exec_ok P M _ LK n (enter_fn P n) (enter_fn_ok P M _ LK n) st K (fun _ _ => False) _ _ [] infun fe x t L'
    (scope_refs _ _ _ _ G Sf Sc) IFn IN) as X.
  rewrite Hh in X. change (dep K) with (length frames) in X.
  destruct (Source.exec P (enter_fn P n) n infun (length frames) (length (t_stk t)) st fe x) as [[[sg fe'] x']| | |];
    cbn [sim] in X; auto.
  - destruct X as (t' & S & X). destruct sg; cbn [spost] in X.
    + apply inst_executing in X as (A & B). exists t'. auto.
    + destruct X as (y & [] & _).
    + destruct X as (y & [] & _).
    + destruct X as (f & fr & A & B & C & D & F & I & J1 & J2 & J3 & J4). exists t', f, fr. auto 12.
  - destruct X as (t' & S & _ & A). eauto.
Qed.
Print Assumptions statement_executes.

(** ** C20: a call in compiled code gives the callee its arguments, and control
    comes back with the callee's result and everything the caller had on the
    stack. *)
Theorem call_runs_callee : forall {H} s (callees : nat -> list value -> fprog H) props n y i params locals ret vs temps fe below frames st t pc next,
  ready s ->
  let P := program_of s callees in
  let M := machine_of s callees props in
  In y (tb_syms (k_tbl s)) -> sy_body y = SyFunc i params locals ret ->
  at_instr M t (ICall (Z.of_nat (length vs)) (Z.of_nat i)) next ->
  executing t pc (rev vs ++ temps) fe below frames st -> length (t_stk t) <= 128 ->
  match enter_fn P n (length frames) (length (t_stk t)) y vs st with
  | Ok (v, st') => exists t', star M (length frames) t t' /\ executing t' next temps fe below frames st' /\ t_ret t' = v
  | Abort => exists t', star M (length frames) t t' /\ cycles M no_poll t' Abort
  | UB => True
  | Fuel => forall floor, Simulate.below (length frames) floor -> loop M no_poll n floor t = Fuel
  end.
Proof.
  intros H s callees props n y i params locals ret vs temps fe below frames st t pc next R P M Iy By (_ & D) Ex Rm.
  pose proof (ready_linked s callees props R) as LK. fold P M in LK.
  destruct (executing_inst P t _ _ _ _ _ _ Ex Rm) as (IN & Hh).
  set (K := mkK below frames (length (e_args fe)) (length (e_locals fe))) in *.
  assert (I32 : (Z.of_nat i < 2^32)%Z).
  { destruct R as (n0 & mods & file & src & ts & s0 & R & Hm & E & _ & _ & F & _).
    destruct (compile_reachable _ _ _ _ _ _ _ R Hm E) as (L & _).
    pose proof (count_of _ _ (NFun, i) (ld_good _ _ L) Iy ltac:(rewrite By; left; reflexivity)) as X. cbn in X. lia. }
  assert (Ac : at_call (m_code M) (Z.of_nat (length vs)) (Some y) pc next).
  { exists y, (ICall (Z.of_nat (length vs)) (Z.of_nat i)). split; auto. split; [rewrite By; reflexivity|].
    unfold at_i. cbn [norm]. rewrite Z.mod_small by lia. destruct Ex as (<- & _). exact D. }
  pose proof (sim_call P M _ LK n (enter_fn P n) (enter_fn_ok P M _ LK n) K pc next (Z.of_nat (length vs)) (Some y) vs temps fe st t
    IN Ac eq_refl ltac:(intros z [= <-]; exact Iy) y eq_refl) as X.
  unfold Source.call_sym in X. rewrite By, Hh in X. change (dep K) with (length frames) in X.
  destruct (enter_fn P n (length frames) (length (t_stk t)) y vs st) as [[v st']| | |]; cbn [sim] in X; auto.
  - destruct X as (t' & S & Ev & Hg & nobj & mx & ->). eexists. split; [exact S|]. split; [repeat split|reflexivity].
  - destruct X as (t' & S & _ & A). eauto.
Qed.
Print Assumptions call_runs_callee.

(** ** C21: [Tiny_CallFunction] on a compiled function, from the host or from
    inside a foreign function, at any point of a run *)
Theorem host_call_computes : forall {H} s (callees : nat -> list value -> fprog H) props n f args st t,
  ready s ->
  let P := program_of s callees in
  let M := machine_of s callees props in
  t_globs t = Some (s_globs st) -> t_heap t = s_heap st -> t_next t = s_next st -> t_host t = s_host st ->
  length (t_stk t) <= 128 ->
  match call_back P (enter_fn P n) (length (t_frames t)) (length (t_stk t)) f args st with
  | Ok (v, st') => exists t', calls M no_poll t f args (Ok (v, t')) /\
      t_pc t' = t_pc t /\ t_fp t' = t_fp t /\ t_stk t' = t_stk t /\ t_frames t' = t_frames t /\ t_ret t' = t_ret t /\
      t_globs t' = Some (s_globs st') /\ t_heap t' = s_heap st' /\ t_host t' = s_host st'
  | Abort => calls M no_poll t f args Abort
  | UB => True
  | Fuel => forall k, k < n -> call_function M no_poll k t f args = Fuel
  end.
Proof.
  intros H s callees props n f args st t R P M G1 G2 G3 G4 Rm.
  pose proof (ready_linked s callees props R) as LK. fold P M in LK.
  assert (Sh : shared st t) by (split; [|split; [|split]]; assumption).
  pose proof (call_back_ok P M _ LK n (enter_fn P n) (enter_fn_ok P M _ LK n) t f args st Sh Rm) as X. unfold follows in X.
  destruct (call_back P (enter_fn P n) (length (t_frames t)) (length (t_stk t)) f args st) as [[v st']| | |]; auto.
  - destruct X as (k & t' & E & (C1 & C2 & C3 & C4 & C5) & (D1 & D2 & D3 & D4) & Es & Er). exists t'.
    split; [split; [discriminate|exists k; exact E]|]. auto 10.
  - destruct X as (k & E). split; [discriminate|exists k; exact E].
Qed.
Print Assumptions host_call_computes.

(** ** A program that meets the hypotheses *)
Definition demo_src : text := text_of
"struct P { x: int y: int }
LIMIT :: 7
func fact(n: int): int { if n <= 1 { return 1 } return n * fact(n - 1) }
func half(a: float): float { b := a * 0.5 return b }
r := fact(5)
s := 0
for i := 0; i < 10; i += 1 { if i == 3 { continue } if i >= LIMIT { break } s += i }
p := new P{.y = 4, .x = 3}
p.x = p.x * 10 + p.y
q := p.x > 33 && r != 0 || false
w := 10
while w > 0 { w -= 4 }
z := if q half(3.0) else 0.0
log(r, s)".

(** The host logs the arguments of [log] in its memory. *)
Definition demo_log (args : list value) : fprog (list (list value)) :=
  FHost (fun w => FSetHost (args :: w) (FRet VNull)).
Definition demo_callees (c : nat) : list value -> fprog (list (list value)) :=
  match c with 7 => demo_log | _ => fun _ => FUB end.
Definition demo_natives : natives (list (list value)) := mkNatives _ (fun _ _ _ => []) (fun _ w _ => w).

Definition demo_start : cres kst (list tstmt) :=
  match create_state with
  | COk tt s0 =>
      match host 20 (HFun (text_of "log(...): void") 7) s0 with
      | COk tt s1 => compile_string 200 (fun _ _ _ _ => CAbort) None demo_src s1
      | _ => CUB
      end
  | _ => CUB
  end.
Definition demo_state : kst := Eval vm_compute in match demo_start with COk _ s => s | _ => init_kst end.

Lemma ready_by_host n o m mods file src c s1 ts s' : create_state = c ->
  (forall m args as_ x b x', mods m args as_ x = COk b x' -> steps x x') ->
  match c with COk tt s0 => host n o s0 | _ => CUB end = COk tt s1 ->
  compile_string m mods file src s1 = COk ts s' -> fits_c s' -> ready s'.
Proof.
  intros Ec Hm E1 E F. destruct c as [[] s0| | | | |]; try discriminate E1.
  exists m, mods, file, src, ts, s1. split; [|auto]. exists s0. split; [exact Ec|]. eapply st_host; [exact E1|apply st_refl].
Qed.

Definition demo_s1 : kst := Eval vm_compute in match create_state with
  | COk tt s0 => match host 20 (HFun (text_of "log(...): void") 7) s0 with COk tt s1 => s1 | _ => init_kst end | _ => init_kst end.
Definition demo_ts : list tstmt := Eval vm_compute in match demo_start with COk ts _ => ts | _ => [] end.
Lemma demo_host : match create_state with COk tt s0 => host 20 (HFun (text_of "log(...): void") 7) s0 | _ => CUB end = COk tt demo_s1.
Proof. vm_cast_no_check (eq_refl (COk tt demo_s1)). Qed.
Lemma demo_compiles : compile_string 200 (fun _ _ _ _ => CAbort) None demo_src demo_s1 = COk demo_ts demo_state.
Proof. vm_cast_no_check (eq_refl (COk demo_ts demo_state)). Qed.
Example demo_ready : ready demo_state.
Proof.
  assert (M : forall (m : text) (args : list text) (as_ : option text) (x : kst) b x', (CAbort : cres kst bool) = COk b x' -> steps x x') by discriminate.
  assert (F : fits_c demo_state) by (vm_compute; repeat split).
  exact (ready_by_host 20 (HFun (text_of "log(...): void") 7) 200 (fun _ _ _ _ => CAbort) None demo_src create_state demo_s1 demo_ts demo_state
    eq_refl M demo_host demo_compiles F).
Qed.

Example demo_meaning :
  let P := program_of demo_state demo_callees in
  match exec_top P 50 (k_hist demo_state) (start_sst P []) with
  | Ok s => s_globs s = [VInt 120; VInt 18; VInt 7; VStruct 0; VBool true; VInt (-2); VFloat 4609434218613702656] /\
      s_host s = [[VInt 120; VInt 18]]
  | _ => False
  end.
Proof. vm_compute. auto. Qed.

(** ... so [program_runs] says that the compiled program, run by the machine,
    computes these globals and makes this one call of [log]. *)
Example demo_runs :
  let M := machine_of demo_state demo_callees demo_natives in
  exists t', runs M no_poll (start_thread M (init_thread [])) (Ok t') /\ t_host t' = [[VInt 120; VInt 18]] /\
    option_map (firstn 3) (t_globs t') = Some [VInt 120; VInt 18; VInt 7].
Proof.
  intros M. pose proof (program_runs demo_state demo_callees demo_natives [] 50 demo_ready) as X. cbv zeta in X. fold M in X.
  pose proof demo_meaning as Y. cbv zeta in Y. destruct (exec_top _ _ _ _) as [s| | |]; try contradiction.
  destruct X as (t' & E & _ & G & _ & Hw & _). destruct Y as (Yg & Yh). exists t'. split; auto.
  rewrite G, Hw, Yg, Yh. auto.
Qed.

(** ... and a place in a program where the expression and statement theorems
    apply: the first statement of [y := 6 * 7 > 40 && true]. *)
Definition small_start : cres kst (list tstmt) :=
  match create_state with
  | COk tt s0 =>
      match host 20 (HMacro (text_of "m")) s0 with
      | COk tt s1 => compile_string 60 (fun _ _ _ _ => CAbort) None (text_of "y := 6 * 7 > 40 && true  y = false") s1
      | _ => CUB
      end
  | _ => CUB
  end.
Definition small_state : kst := Eval vm_compute in match small_start with COk _ s => s | _ => init_kst end.
Definition small_stmt : tstmt := Eval vm_compute in match small_start with COk (st :: _) _ => st | _ => TSConst 0 end.
Definition small_expr : texpr := Eval vm_compute in match small_stmt with TSDecl _ _ e => e | _ => TNull end.

Definition small_s1 : kst := Eval vm_compute in match create_state with
  | COk tt s0 => match host 20 (HMacro (text_of "m")) s0 with COk tt s1 => s1 | _ => init_kst end | _ => init_kst end.
Definition small_ts : list tstmt := Eval vm_compute in match small_start with COk ts _ => ts | _ => [] end.
Lemma small_host : match create_state with COk tt s0 => host 20 (HMacro (text_of "m")) s0 | _ => CUB end = COk tt small_s1.
Proof. vm_cast_no_check (eq_refl (COk tt small_s1)). Qed.
Lemma small_compiles : compile_string 60 (fun _ _ _ _ => CAbort) None (text_of "y := 6 * 7 > 40 && true  y = false") small_s1 = COk small_ts small_state.
Proof. vm_cast_no_check (eq_refl (COk small_ts small_state)). Qed.
Example small_ready : ready small_state.
Proof.
  assert (M : forall (m : text) (args : list text) (as_ : option text) (x : kst) b x', (CAbort : cres kst bool) = COk b x' -> steps x x') by discriminate.
  assert (F : fits_c small_state) by (vm_compute; repeat split).
  exact (ready_by_host 20 (HMacro (text_of "m")) 60 (fun _ _ _ _ => CAbort) None (text_of "y := 6 * 7 > 40 && true  y = false") create_state small_s1 small_ts small_state
    eq_refl M small_host small_compiles F).
Qed.

Definition blank (s : kst) : kst := set_code (set_fpcs s []) [].
Definition small_k : kst := Eval vm_compute in blank small_state.
Lemma blank_shape s : same_shape (k_tbl s) (k_tbl (blank s)).
Proof. apply shape_refl. Qed.
Lemma agree_app (c d l : program) : l = c ++ d -> agree 0 (plen c) c l.
Proof. intros ->. apply (proj2 (ext_app c d)). Qed.
Definition expr_end : kst := Eval vm_compute in match compile_expr small_expr small_k with COk _ k => k | _ => init_kst end.
Definition stmt_end : kst := Eval vm_compute in match compile_stmt None small_stmt small_k with COk _ k => k | _ => init_kst end.

Example expression_case :
  same_shape (k_tbl small_state) (k_tbl small_k) /\ compile_expr small_expr small_k = COk tt expr_end /\ agree (plen (k_code small_k)) (plen (k_code expr_end)) (k_code expr_end) (k_code small_state) /\ Forall (in_scope None) (erefs small_expr) /\ scope_of (k_tbl small_state) None (mkEnv [] []) /\ let P := program_of small_state demo_callees in
  eval P (enter_fn P 5) 0 (mkEnv [] []) small_expr 0 (start_sst P []) = Ok (VBool true, start_sst P []).
Proof.
  split; [exact (blank_shape small_state)|]. split; [vm_cast_no_check (@Logic.eq_refl (cres kst unit) (COk tt expr_end))|]. split.
  { apply (agree_app (k_code expr_end) (skipn (length (k_code expr_end)) (k_code small_state))).
    vm_cast_no_check (@Logic.eq_refl program (k_code small_state)). }
  split; [vm_compute; repeat constructor|]. split; [exact I || vm_compute; auto|]. vm_compute. reflexivity.
Qed.
Example statement_case :
  compile_stmt None small_stmt small_k = COk [] stmt_end /\ bodies small_stmt = [] /\ agree (plen (k_code small_k)) (plen (k_code stmt_end)) (k_code stmt_end) (k_code small_state) /\ Forall (in_scope None) (srefs small_stmt) /\ let P := program_of small_state demo_callees in
  match Source.exec P (enter_fn P 5) 5 false 0 0 small_stmt (mkEnv [] []) (start_sst P []) with
  | Ok (Go, _, x') => s_globs x' = [VBool true]
  | _ => False
  end.
Proof.
  split; [vm_cast_no_check (@Logic.eq_refl (cres kst (list (bool * Z))) (COk [] stmt_end))|]. split; [vm_compute; reflexivity|]. split.
  { apply (agree_app (k_code stmt_end) (skipn (length (k_code stmt_end)) (k_code small_state))).
    vm_cast_no_check (@Logic.eq_refl program (k_code small_state)). }
  split; [vm_compute; repeat constructor|]. vm_compute. reflexivity.
Qed.
