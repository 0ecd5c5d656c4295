(** * C28: a failed compile keeps what was compiled before *)
From Verif Require Import Base Token Lexer Values Heap Code CodeSpec CodeProofs FileLine Syntax VM VMSpec Source Symbols Parser Resolve Layout LayoutProofs SimExpr
  SimEval SimStmt Compile CompileProofs TableInv ParserInv Host LayTable Whole Preserve FailTable FailCode Props_Compile Props_Driver.
Local Open Scope nat_scope.

(** What a host may do that goes on after compile errors: like [steps] of Host.v,
    but every call, also one of a macro, may fail (a macro that fails jumps out of
    the compile that uses it). *)
Inductive moves : kst -> kst -> Prop :=
| mv_refl s : moves s s
| mv_host n o s s1 s2 : (host n o s = COk tt s1 \/ host n o s = CFail s1) -> moves s1 s2 -> moves s s2
| mv_compile n mods file src s s1 s2 :
    (forall m args as_ x b x', mods m args as_ x = COk b x' \/ mods m args as_ x = CFail x' -> moves x x') ->
    ((exists ts, compile_string n mods file src s = COk ts s1) \/ compile_string n mods file src s = CFail s1) ->
    moves s1 s2 -> moves s s2.

Lemma moves_ks s0 pre : good full (k_tbl s0) -> (k_code s0 = [] /\ pre = [] \/ k_code s0 = pre ++ [43%Z]) ->
  forall s s', moves s s' -> ks s0 pre s -> ks s0 pre s'.
Proof.
  intros G C s s' M. induction M as [s|n o s s1 s2 E M IH|n mods file src s s1 s2 Hm IHm E M IH]; intros K; auto.
  - apply IH. pose proof (ke_host s0 G pre n o s K) as X. destruct E as [E|E]; rewrite E in X; [apply X|exact X].
  - apply IH. assert (Hk : forall m args as_, ke (ks s0 pre) (mods m args as_) any).
    { intros m args as_ x Kx. destruct (mods m args as_ x) as [b x'|x'| | | |] eqn:Em; auto.
      - split; [|exact I]. apply (IHm _ _ _ _ b _ (or_introl Em) Kx).
      - apply (IHm _ _ _ _ true _ (or_intror Em) Kx). }
    pose proof (ke_compile s0 G pre C mods Hk n file src s K) as X. destruct E as [(ts & E)|E]; rewrite E in X; [apply X|exact X].
Qed.

Lemma ks_refl s0 pre : tb_func (k_tbl s0) = None -> (k_code s0 = [] /\ pre = [] \/ k_code s0 = pre ++ [43%Z]) -> ks s0 pre s0.
Proof.
  intros F C. split; [|lia]. constructor; auto.
  - apply base_refl. exact F.
  - destruct C as [(-> & ->)| ->]; eauto. exists []. reflexivity.
  - intros l1 l2 E _. eauto.
Qed.

(** The code below the final TINY_OP_HALT *)
Definition old_code (s : kst) : program := removelast (k_code s).
Lemma old_cases s pend : loaded pend s -> k_code s = [] /\ old_code s = [] \/ k_code s = old_code s ++ [43%Z].
Proof.
  intros L. unfold old_code. destruct (ld_halt _ _ L) as [E|(pre & E)]; rewrite E; [auto|]. right. rewrite removelast_last. reflexivity.
Qed.

Lemma reachable_moves s s' : reachable s -> moves s s' -> ks s (old_code s) s'.
Proof.
  intros R M. pose proof (reachable_loaded _ R) as L. pose proof (old_cases _ _ L) as C.
  apply (moves_ks _ _ (ld_good _ _ L) C _ _ M). apply ks_refl; [apply (ld_func _ _ L)|exact C].
Qed.

(** ** Names *)
Lemma kept_label x y : kept x y -> label y = label x.
Proof.
  destruct x as [i n b], y as [i' n' b']. intros (E1 & E2 & Kb). cbn in *. subst. destruct Kb as [<-|Kb]; auto.
  destruct b as [| | | |[]| | |]; try contradiction; destruct b'; try contradiction; unfold label; cbn; auto; destruct Kb; subst; auto.
Qed.
Lemma kept_labels l l' : Forall2 kept l l' -> map label l' = map label l.
Proof. induction 1 as [|x y l l' K F IH]; cbn; auto. rewrite (kept_label _ _ K), IH. reflexivity. Qed.
Lemma base_labels t t' : base t t' -> exists ns, map label (tb_syms t') = map label (tb_syms t) ++ ns.
Proof. intros [(l1 & l2 & E & K & _) _ _ _ _ _ _]. exists (map label l2). rewrite E, map_app, (kept_labels _ _ K). reflexivity. Qed.

(** What a symbol still is after a failure: the same, except that a global
    variable may have been marked as used before its initialisation was compiled
    (which a later compile may be the one to do) and a struct or foreign type that
    had only been mentioned may have been defined. *)
Definition still (x y : sym) : Prop :=
  sy_id y = sy_id x /\ sy_name y = sy_name x /\
  (sy_body y = sy_body x \/
   match sy_body x, sy_body y with
   | SyGlobal i _ g, SyGlobal i' _ g' => i = i' /\ g = g'
   | SyStruct false _, (SyStruct _ _ | SyForeignTag) => True
   | _, _ => False
   end).
Lemma kept_still x y : kept x y -> still x y.
Proof. intros (A & B & [E|C]); split; auto. Qed.

Lemma prefix_nth {A} (p r : list A) q x : q = p ++ r -> forall i, nth_error p i = Some x -> nth_error q i = Some x.
Proof. intros -> i E. rewrite nth_error_app1; auto. apply nth_error_Some. congruence. Qed.

(** Whatever a host does after a state was reached, failing or not *)
Theorem failures_keep : forall s s', reachable s -> moves s s' ->
  (forall name, (get_function_index s name >= 0)%Z -> get_function_index s' name = get_function_index s name) /\
  (forall name, (get_global_index s name >= 0)%Z -> get_global_index s' name = get_global_index s name) /\
  (forall name i pc, get_function_index s name = Z.of_nat i ->
     nth_error (k_fpcs s) i = Some (Some pc) -> nth_error (k_fpcs s') i = Some (Some pc)) /\
  (forall p, S p < length (k_code s) -> nth_error (k_code s') p = nth_error (k_code s) p) /\
  length (k_code s) <= length (k_code s') /\
  (forall i x, nth_error (tb_strings (k_tbl s)) i = Some x -> nth_error (tb_strings (k_tbl s')) i = Some x) /\
  (forall y i a va r c, In y (tb_syms (k_tbl s)) -> sy_body y = SyForeign i a va r c ->
     nth_error (k_ftab s) i = Some (Some c) -> nth_error (k_ftab s') i = Some (Some c)) /\
  exists l, Forall2 still (tb_syms (k_tbl s)) (firstn l (tb_syms (k_tbl s'))).
Proof.
  intros s s' R M. pose proof (reachable_loaded _ R) as L. pose proof (old_cases _ _ L) as C.
  destruct (reachable_moves _ _ R M) as ([Kt (r & Kc) Kf Kx Kl] & Le). destruct (base_labels _ _ Kt) as (ns & Lb).
  split; [|split; [|split; [|split; [|split; [|split; [|split]]]]]]; auto.
  - intros name G. rewrite !func_by_label in *. rewrite Lb. apply label_stays. exact G.
  - intros name G. rewrite !glob_by_label in *. rewrite Lb. apply label_stays. exact G.
  - intros name i pc E N. apply Kf; auto. unfold get_function_index in E.
    destruct (find _ _) as [[f n b]|] eqn:F; [|lia]. apply find_some in F as (I & B). cbn [sy_body] in *.
    destruct b; try discriminate B. apply Nat2Z.inj in E. subst index.
    exact (count_of _ _ (NFun, i) (ld_good _ _ L) I ltac:(left; reflexivity)).
  - intros p Lp. rewrite Kc. destruct C as [(E & _)|E]; [rewrite E in Lp; cbn in Lp; lia|].
    assert (p < length (old_code s)) by (rewrite E, app_length in Lp; cbn in Lp; lia).
    transitivity (nth_error (old_code s ++ [43%Z]) p); [|rewrite <- E; reflexivity]. rewrite !nth_error_app1 by auto. reflexivity.
  - intros i x. destruct (bs_strings _ _ Kt) as (w & ->). apply (prefix_nth _ w _ _ eq_refl).
  - destruct (bs_syms _ _ Kt) as (l1 & l2 & -> & K & _). exists (length l1). rewrite firstn_app, Nat.sub_diag, firstn_all, firstn_O, app_nil_r.
    clear -K. induction K; constructor; auto. apply kept_still; auto.
Qed.
Print Assumptions failures_keep.

(** After a failed compile, moreover, nothing is new but strings: exactly the old
    names are there and the program has its old length. *)
Theorem failed_compile : forall n mods file src s s', reachable s ->
  (forall m args as_ x b x', mods m args as_ x = COk b x' \/ mods m args as_ x = CFail x' -> moves x x') ->
  compile_string n mods file src s = CFail s' ->
  Forall2 still (tb_syms (k_tbl s)) (tb_syms (k_tbl s')) /\
  (forall name, get_function_index s' name = get_function_index s name) /\
  (forall name, get_global_index s' name = get_global_index s name) /\
  length (k_code s') = length (k_code s) /\
  (forall p, S p < length (k_code s) -> nth_error (k_code s') p = nth_error (k_code s) p) /\
  (forall l1 l2, k_lines s = l1 ++ l2 -> Forall (fun r => (pl_pc r + 1 < plen (k_code s))%Z) l1 ->
     exists l, k_lines s' = l1 ++ l).
Proof.
  intros n mods file src s s' R Hm E. pose proof (reachable_loaded _ R) as L. pose proof (old_cases _ _ L) as C.
  assert (M : moves s s') by (exact (mv_compile n mods file src s s' s' Hm (or_intror E) (mv_refl s'))).
  destruct (failures_keep _ _ R M) as (_ & _ & _ & F4 & F5 & _). pose proof (reachable_moves _ _ R M) as ([Kt _ _ _ Kl] & _).
  unfold compile_string in E. destruct (compile_body n mods file src s) as [|s1| | | |]; try discriminate. injection E as <-.
  cbn [roll_back k_tbl k_code k_lines] in *.
  assert (Q : exists l1, Forall2 kept (tb_syms (k_tbl s)) l1 /\ firstn (length (tb_syms (k_tbl s))) (tb_syms (k_tbl s1)) = l1).
  { destruct (bs_syms _ _ Kt) as (l1 & l2 & E & K & _). cbn [set_syms tb_syms] in E. exists l1. split; auto. rewrite E.
    pose proof (Forall2_length _ _ _ K) as Len. apply (f_equal (@length _)) in E as E'. rewrite firstn_length, app_length in E'.
    destruct l2 as [|y l2]; [apply app_nil_r|]. cbn in E'. lia. }
  destruct Q as (l1 & K & E).
  assert (Lb : map label (tb_syms (k_tbl (roll_back s s1))) = map label (tb_syms (k_tbl s))).
  { cbn [roll_back k_tbl set_syms tb_syms]. rewrite E. apply kept_labels. exact K. }
  split; [|split; [|split; [|split; [|split]]]]; auto.
  - cbn [set_syms tb_syms]. rewrite E. clear -K. induction K; constructor; auto. apply kept_still; auto.
  - intros name. exact (eq_trans (func_by_label (roll_back s s1) name) (eq_trans (f_equal (fun l => label_no (find (func_label name) l)) Lb) (eq_sym (func_by_label s name)))).
  - intros name. exact (eq_trans (glob_by_label (roll_back s s1) name) (eq_trans (f_equal (fun l => label_no (find (glob_label name) l)) Lb) (eq_sym (glob_by_label s name)))).
  - rewrite firstn_length, app_length, skipn_length in *. lia.
  - intros k1 k2 El F. apply (Kl k1 k2 El). eapply Forall_impl; [|exact F]. intros r. cbn beta.
    destruct C as [(Ec & ->)|Ec]; [rewrite Ec|rewrite Ec, plen_app]; cbn; lia.
Qed.
Print Assumptions failed_compile.

(** ** Calls *)

(** The program of [s] on a machine that has more strings and global variables *)
Definition among (s s' : kst) : tbl :=
  mkTbl (tb_syms (k_tbl s)) (tb_next (k_tbl s)) (tb_strings (k_tbl s')) (tb_nglob (k_tbl s')) (tb_nfun (k_tbl s)) (tb_nforeign (k_tbl s))
    (tb_scope (k_tbl s)) (tb_func (k_tbl s)).

Lemma among_extends s s' : extends (k_tbl s) (among s s').
Proof. constructor; [intros id y E _; exists y; auto|exists []; rewrite app_nil_r; auto]. Qed.

Lemma moved_linked {H} s s' (callees : nat -> list value -> fprog H) props : ready s -> moves s s' ->
  linked (mkProg H (among s s') (find_body (flat_map bodies (k_hist s))) callees 128 64) (machine_of s' callees props) (entry (among s s') s').
Proof.
  intros (n & mods & file & src & ts & sb & R & Hm & E & (Fc & Fg & Ff & Fx)) M.
  destruct (compile_reachable _ _ _ _ _ _ _ R Hm E) as (L & (Fr & pre & Ec)). pose proof (ld_good _ _ L) as G.
  assert (Rs : reachable s).
  { apply ready_reachable. exists n, mods, file, src, ts, sb. unfold fits_c. auto 10. }
  destruct (reachable_moves _ _ Rs M) as ([Kt (r & Kc) Kf Kx Kl] & Le).
  assert (Eo : old_code s = pre) by (unfold old_code; rewrite Ec; apply removelast_last). rewrite Eo in Kc.
  assert (Lp : (plen pre < 2^31)%Z) by (rewrite Ec, plen_app in Fc; cbn in Fc; lia).
  pose proof (ld_code _ _ L) as Cd. rewrite Ec, drop_halt_app in Cd. specialize (Cd Lp).
  assert (En : forall f bd m, In (f, bd) (flat_map bodies (k_hist s)) -> entry (k_tbl s) s f m -> entry (among s s') s' f m).
  { intros f bd m _ (i & Ei & N). exists i. split; [exact Ei|]. apply Kf; auto. exact (findex_count _ _ _ G Ei). }
  assert (Lm : laid (among s s') s' (k_code s') (k_hist s) 0 (plen pre)).
  { eapply laid_move; [exact Cd|exact G|exact (gd_unique _ _ G)|apply among_extends| |exact En].
    rewrite Kc. apply (proj2 (ext_app pre r)). }
  constructor; cbn [among machine_of p_tbl p_room p_depth p_body p_callee m_stack m_depth m_strings m_nglobals m_foreign m_fpcs m_code
    tb_syms tb_strings tb_nglob]; try reflexivity.
  - cbn. lia.
  - intros id i Eg. change (gidx (k_tbl s) id = Some i) in Eg. unfold gidx in Eg. destruct (sym_at (k_tbl s) id) as [[yi yn []]|] eqn:Y; try discriminate. injection Eg as ->.
    apply sym_at_in in Y as (I & _). pose proof (count_of _ _ (NGlob, i) G I ltac:(left; reflexivity)) as X. cbn in X. lia.
  - intros id fs Eg. change (sfields (k_tbl s) id = Some fs) in Eg. unfold sfields in Eg. destruct (sym_at (k_tbl s) id) as [[yi yn []]|] eqn:Y; try discriminate.
    destruct defined; try discriminate. injection Eg as ->. apply (good_at _ _ _ _ G Y).
  - intros y i a va rt c I B. split.
    + pose proof (count_of _ _ (NForeign, i) G I ltac:(rewrite B; left; reflexivity)) as X. cbn in X. lia.
    + rewrite nth_error_map, (Kx _ _ _ _ _ _ I B (Fr _ _ _ _ _ _ I B)). reflexivity.
  - intros y i params locals ret body I B Eb. apply find_body_in in Eb.
    assert (Y : sym_at (k_tbl s) (sy_id y) = Some y) by (apply in_sym_at; auto; apply G).
    destruct y as [f nm yb]. cbn [sy_body sy_id] in *. subst yb.
    split; [pose proof (count_of _ _ (NFun, i) G I ltac:(left; reflexivity)) as X; cbn in X; lia|].
    destruct Lm as (p & Lm). change (lay_stmt (among s s') (k_code s') (entry (among s s') s') anywhere (TSBlock 0 (k_hist s)) 0 (plen pre) p) in Lm.
    destruct (lay_body _ _ _ f body _ _ _ _ _ Lm Eb) as (m & e & (j & Ej & Nj) & i' & args' & locals' & ret' & m1 & m2 & Es & Ll & Lo & (q & Lb) & Lr).
    change (option_map sy_body (sym_at (k_tbl s) f) = Some (SyFunc i' args' locals' ret')) in Es || idtac.
    change (sym_at (among s s') f) with (sym_at (k_tbl s) f) in Es.
    rewrite Y in Es. cbn in Es. injection Es as <- <- <- <-.
    change (findex (among s s') f) with (findex (k_tbl s) f) in Ej. unfold findex in Ej. rewrite Y in Ej. injection Ej as <-.
    split; [exact Ll|]. split.
    + pose proof (ld_bodies _ _ L) as Bd. eapply Forall_forall in Bd; [|exact Eb]. cbn [fst snd] in Bd.
      eapply Forall_impl; [|exact Bd]. intros rf Sr. exact (scope_ref_ok (k_tbl s) _ _ _ _ _ _ _ G Y Sr).
    + exists m, m1, m2, e, q. split; [rewrite nth_error_map, Nj; reflexivity|]. auto.
Qed.

(** A call of function number [f] that the program of [s] gives a result (or lets
    run for ever) has the same result after any failures. *)
Theorem calls_survive : forall {H} s s' (callees : nat -> list value -> fprog H) props n f args st t t' extra,
  ready s -> moves s s' ->
  let P := program_of s callees in
  let M := machine_of s callees props in
  let M' := machine_of s' callees props in
  t_globs t = Some (s_globs st) -> t_heap t = s_heap st -> t_next t = s_next st -> t_host t = s_host st ->
  length (t_stk t) <= 128 ->
  t_globs t' = Some (s_globs st ++ extra) -> t_heap t' = t_heap t -> t_next t' = t_next t -> t_host t' = t_host t ->
  length (t_stk t') = length (t_stk t) -> length (t_frames t') = length (t_frames t) ->
  match call_back P (enter_fn P n) (length (t_frames t)) (length (t_stk t)) f args st with
  | Ok (v, st1) => exists t1 t1', calls M no_poll t f args (Ok (v, t1)) /\ calls M' no_poll t' f args (Ok (v, t1')) /\
      t_globs t1 = Some (s_globs st1) /\ t_globs t1' = Some (s_globs st1 ++ extra) /\
      t_heap t1' = t_heap t1 /\ t_host t1' = t_host t1 /\ t_stk t1' = t_stk t' /\ t_frames t1' = t_frames t'
  | Fuel => forall k, k < n -> call_function M no_poll k t f args = Fuel /\ call_function M' no_poll k t' f args = Fuel
  | _ => True
  end.
Proof.
  intros H s s' callees props n f args st t t' extra R Mv P M M' G1 G2 G3 G4 Rm G1' G2' G3' G4' Ls Lf.
  set (P' := mkProg H (among s s') (find_body (flat_map bodies (k_hist s))) callees 128 64).
  assert (L : loaded [] s).
  { destruct R as (n0 & mods & file & src & ts & s0 & Rr & Hm & E & _). eapply compile_reachable; eauto. }
  pose proof (reachable_moves _ _ (ready_reachable _ R) Mv) as ([Kt _ _ _ _] & _).
  set (st' := mkS (s_globs st ++ extra) (s_heap st) (s_next st) (s_host st)).
  assert (Rel : rel (vmore extra) (call_back P (enter_fn P n) (length (t_frames t)) (length (t_stk t)) f args st)
    (call_back P' (enter_fn P' n) (length (t_frames t)) (length (t_stk t)) f args st')).
  { apply call_back_rel; try reflexivity; auto.
    - apply (ld_good _ _ L).
    - exact (gd_unique _ _ (ld_good _ _ L)).
    - apply among_extends.
    - exact (bs_strings _ _ Kt).
    - exact (bs_nglob _ _ Kt).
    - split; auto. }
  pose proof (host_call_computes s callees props n f args st t R G1 G2 G3 G4 Rm) as X. cbv zeta in X. fold P M in X.
  pose proof (moved_linked s s' callees props R Mv) as LK. fold P' M' in LK.
  assert (Sh : shared st' t') by (split; [|split; [|split]]; cbn; congruence).
  pose proof (call_back_ok P' M' _ LK n (enter_fn P' n) (enter_fn_ok P' M' _ LK n) t' f args st' Sh ltac:(rewrite Ls; exact Rm)) as X'.
  unfold follows in X'. rewrite Ls, Lf in X'.
  destruct (call_back P (enter_fn P n) (length (t_frames t)) (length (t_stk t)) f args st) as [[v st1]| | |]; auto.
  - destruct Rel as ([v' st1'] & Er & (Ev & (Q1 & Q2 & Q3 & Q4))). cbn [fst snd] in *. subst v'. rewrite Er in X'.
    destruct X as (t1 & C1 & _ & _ & _ & _ & _ & X1 & X2 & X3).
    destruct X' as (k & t1' & Ek & (C1' & C2' & C3' & C4' & C5') & (D1 & D2 & D3 & D4) & Es' & Er').
    exists t1, t1'. split; [exact C1|]. split; [split; [discriminate|exists k; exact Ek]|].
    repeat split; auto; try congruence.
  - cbn in Rel. rewrite Rel in X'. auto.
Qed.
Print Assumptions calls_survive.

(** ** A program, and a compile after it that fails *)
Definition no_macro : text -> macro := fun _ _ _ _ => CAbort.
Definition kept_src : text := text_of
"C :: 7
func dbl(x: int): int { return x * 2 }
a := dbl(C)".
Definition cmp (src : text) (s : kst) : cres kst (list tstmt) := compile_string 100 no_macro None src s.
Definition kept_state : kst := Eval vm_compute in match cmp kept_src small_s1 with COk _ s => s | _ => init_kst end.
Definition kept_ts : list tstmt := Eval vm_compute in match cmp kept_src small_s1 with COk ts _ => ts | _ => [] end.
Lemma kept_compiles : compile_string 100 no_macro None kept_src small_s1 = COk kept_ts kept_state.
Proof. vm_cast_no_check (eq_refl (COk kept_ts kept_state)). Qed.
Definition failed_of (r : cres kst (list tstmt)) : kst := match r with CFail s => s | _ => init_kst end.

(** Three statements are compiled before the constant is assigned to. *)
Definition bad_src : text := text_of
"func half(x: float): float { return x * 0.5 }
y := half(3.0)
print := ""text""
C = 8".
Definition bad_state : kst := Eval vm_compute in failed_of (cmp bad_src kept_state).
Lemma bad_fails : compile_string 100 no_macro None bad_src kept_state = CFail bad_state.
Proof. vm_cast_no_check (eq_refl (CFail (A := list tstmt) bad_state)). Qed.

Lemma no_macro_moves : forall m args as_ x b x', no_macro m args as_ x = COk b x' \/ no_macro m args as_ x = CFail x' -> moves x x'.
Proof. intros m args as_ x b x' [E|E]; discriminate E. Qed.
Lemma no_macro_steps : forall m args as_ x b x', no_macro m args as_ x = COk b x' -> steps x x'.
Proof. intros m args as_ x b x' E; discriminate E. Qed.
Lemma kept_ready : ready kept_state.
Proof.
  assert (F : fits_c kept_state) by (vm_compute; repeat split).
  exact (ready_by_host 20 (HMacro (text_of "m")) 100 no_macro None kept_src create_state small_s1 kept_ts kept_state
    eq_refl no_macro_steps small_host kept_compiles F).
Qed.
Lemma bad_moves : moves kept_state bad_state.
Proof. exact (mv_compile 100 no_macro None bad_src kept_state bad_state bad_state no_macro_moves (or_intror bad_fails) (mv_refl _)). Qed.

(** The hypotheses of the theorems hold of it, and the failure did leave traces:
    two more global variables, one more function, a string, line records. *)
Example failure_met : ready kept_state /\ reachable kept_state /\ moves kept_state bad_state /\
  (get_function_index bad_state (text_of "dbl") = 0 /\ get_function_index bad_state (text_of "half") = -1)%Z /\
  tb_strings (k_tbl bad_state) = [text_of "text"] /\ tb_nglob (k_tbl kept_state) = 1 /\ tb_nglob (k_tbl bad_state) = 3 /\
  length (k_lines kept_state) = 3 /\ length (k_lines bad_state) = 8.
Proof.
  split; [exact kept_ready|]. split; [apply ready_reachable, kept_ready|]. split; [exact bad_moves|].
  vm_compute. repeat split.
Qed.

(** dbl(21) before and after, the latter on a thread started after the failure *)
Example dbl_survives : let M := machine_of bad_state (fun _ _ => FUB) (mkNatives unit (fun _ _ _ => []) (fun _ w _ => w)) in
  exists t1, calls M no_poll (start_thread M (init_thread tt)) 0 [VInt 21] (Ok (VInt 42, t1)).
Proof. cbv zeta. eexists. split; [discriminate|]. exists 50. vm_compute. reflexivity. Qed.

(** ** What does not survive *)

(** The main program: the byte of its final TINY_OP_HALT may have been written
    over, and a thread started on it then runs out of the code. *)
Theorem rerun_after_failure_refuted : exists s src s', ready s /\ compile_string 100 no_macro None src s = CFail s' /\
  forall callees props,
    (exists t, runs (machine_of s callees props) no_poll (start_thread (machine_of s callees props) (init_thread tt)) (Ok t)) /\
    runs (machine_of s' callees props) no_poll (start_thread (machine_of s' callees props) (init_thread tt)) UB.
Proof.
  exists kept_state, bad_src, bad_state. split; [exact kept_ready|]. split; [exact bad_fails|]. intros callees props. split.
  - eexists. split; [discriminate|]. exists 50. vm_compute. reflexivity.
  - split; [discriminate|]. exists 50. vm_compute. reflexivity.
Qed.
Print Assumptions rerun_after_failure_refuted.

(** Lines: the code compiled next is found under lines of the failed compile. *)
Definition next_src : text := text_of
"z := 1

w := 2".
Definition next_state : kst := Eval vm_compute in match cmp next_src bad_state with COk _ s => s | _ => init_kst end.
Definition next_ts : list tstmt := Eval vm_compute in match cmp next_src bad_state with COk ts _ => ts | _ => [] end.
Lemma next_compiles : compile_string 100 no_macro None next_src bad_state = COk next_ts next_state.
Proof. vm_cast_no_check (eq_refl (COk next_ts next_state)). Qed.
Theorem lines_after_failure_refuted : exists s src s' src' ts s'', ready s /\
  compile_string 100 no_macro None src s = CFail s' /\ compile_string 100 no_macro None src' s' = COk ts s'' /\
  (* the statement at 72 is on line 3 of the text compiled last, and was recorded so *)
  last (k_lines s'') (mkPL 0 0 0) = mkPL 72 (-1) 3 /\
  exists o, file_line (k_lines s'') 0 72 = Ok (o, 1%Z).
Proof.
  exists kept_state, bad_src, bad_state, next_src, next_ts, next_state. split; [exact kept_ready|]. split; [exact bad_fails|].
  split; [exact next_compiles|]. split; [reflexivity|]. eexists. vm_compute. reflexivity.
Qed.
Print Assumptions lines_after_failure_refuted.

(** Later compiles: after a syntax error inside a function the state believes it
    is still in it, although its symbol was destroyed. *)
Definition cut_src : text := text_of "func g(a: int): int { b := 1 return +".
Definition cut_state : kst := Eval vm_compute in failed_of (cmp cut_src kept_state).
Lemma cut_fails : compile_string 100 no_macro None cut_src kept_state = CFail cut_state.
Proof. vm_cast_no_check (eq_refl (CFail (A := list tstmt) cut_state)). Qed.
Theorem compile_after_failure_refuted : exists s src s' src', ready s /\
  (exists ts s1, compile_string 100 no_macro None src' s = COk ts s1) /\
  compile_string 100 no_macro None src s = CFail s' /\
  compile_string 100 no_macro None src' s' = CUB.
Proof.
  exists kept_state, cut_src, cut_state, (text_of "a = 5"). split; [exact kept_ready|]. split; [|split; [exact cut_fails|]].
  - do 2 eexists. vm_compute. reflexivity.
  - vm_compute. reflexivity.
Qed.
Print Assumptions compile_after_failure_refuted.

(** Types: a struct that the host had only mentioned can be left defined, with
    fields whose types were destroyed. *)
Definition take : host_op := HFun (text_of "take(Q): void") 8.
Definition took_state : kst := Eval vm_compute in match host 30 take kept_state with COk tt s => s | _ => init_kst end.
Lemma take_ok : host 30 take kept_state = COk tt took_state.
Proof. vm_cast_no_check (eq_refl (COk tt took_state)). Qed.
Definition half_src : text := text_of
"struct R { x: int }
struct Q { r: R }
+".
Definition half_state : kst := Eval vm_compute in failed_of (cmp half_src took_state).
Lemma half_fails : compile_string 100 no_macro None half_src took_state = CFail half_state.
Proof. vm_cast_no_check (eq_refl (CFail (A := list tstmt) half_state)). Qed.
Theorem struct_after_failure_refuted : exists s src s' src', reachable s /\
  compile_string 100 no_macro None src s = CFail s' /\
  (* before the failure Q may be defined, after it no longer *)
  (exists ts s1, compile_string 100 no_macro None src' s = COk ts s1) /\
  (exists s1, compile_string 100 no_macro None src' s' = CFail s1) /\
  compile_string 100 no_macro None (text_of "func f(q: Q): int { return q.r.x }") s' = CUB.
Proof.
  exists took_state, half_src, half_state, (text_of "struct Q { x: int }"). split; [|split; [exact half_fails|]].
  - destruct (ready_reachable _ kept_ready) as (c & Ec & S). exists c. split; auto. apply (steps_snoc _ _ S).
    exact (st_host 30 take kept_state took_state took_state take_ok (st_refl _)).
  - split; [do 2 eexists; vm_compute; reflexivity|]. split; [eexists; vm_compute; reflexivity|]. vm_compute. reflexivity.
Qed.
Print Assumptions struct_after_failure_refuted.
