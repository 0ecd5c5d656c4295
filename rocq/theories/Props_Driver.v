(** * C28, C29: several compiles into one state *)
From Verif Require Import Base Token Lexer Values Heap Code CodeSpec Syntax VM VMSpec Source Symbols Parser Resolve Layout SimExpr
  Compile CompileProofs TableInv ParserInv Host LayTable Whole Preserve Props_Compile.
Local Open Scope nat_scope.

(** ** C29: compiling more code preserves what was compiled *)

Definition glob_label (name : text) (l : nat * text * list (nkind * nat)) : bool :=
  match l with (_, n, [(NGlob, _)]) => text_eqb n name | _ => false end.
Definition func_label (name : text) (l : nat * text * list (nkind * nat)) : bool :=
  match l with (_, n, [(NFun, _)]) => text_eqb n name | _ => false end.
Definition label_no (o : option (nat * text * list (nkind * nat))) : Z :=
  match o with Some (_, _, [(_, i)]) => Z.of_nat i | _ => (-1)%Z end.

Lemma glob_by_label s name : get_global_index s name = label_no (find (glob_label name) (map label (tb_syms (k_tbl s)))).
Proof.
  unfold get_global_index. erewrite <- (find_labelled (fun y => match sy_body y with SyGlobal _ _ _ => text_eqb (sy_name y) name | _ => false end)).
  - destruct (find _ _) as [y|] eqn:E; auto. apply find_some in E as (_ & E). destruct y as [i n []]; try discriminate E. reflexivity.
  - intros [i n []]; reflexivity.
Qed.
Lemma func_by_label s name : get_function_index s name = label_no (find (func_label name) (map label (tb_syms (k_tbl s)))).
Proof.
  unfold get_function_index. erewrite <- (find_labelled (fun y => match sy_body y with SyFunc _ _ _ _ => text_eqb (sy_name y) name | _ => false end)).
  - destruct (find _ _) as [y|] eqn:E; auto. apply find_some in E as (_ & E). destruct y as [i n []]; try discriminate E. reflexivity.
  - intros [i n []]; reflexivity.
Qed.

Lemma label_stays (q : nat * text * list (nkind * nat) -> bool) l ns : (label_no (find q l) >= 0)%Z ->
  label_no (find q (l ++ ns)) = label_no (find q l).
Proof. intros G. rewrite find_app. destruct (find q l); auto. cbn in G. lia. Qed.

Lemma drop_halt_all s pend : loaded pend s -> forall p, S p < length (k_code s) ->
  p < length (drop_halt (k_code s)) /\ nth_error (k_code s) p = nth_error (drop_halt (k_code s)) p.
Proof.
  intros L p Lp. destruct (ld_halt _ _ L) as [E|(pre & E)]; [rewrite E in Lp; cbn in Lp; lia|].
  rewrite E in *. rewrite drop_halt_app. rewrite app_length in Lp. cbn in Lp. split; [lia|]. apply nth_error_app1. lia.
Qed.

Lemma drop_halt_prefix c p : p < length (drop_halt c) -> nth_error c p = nth_error (drop_halt c) p.
Proof.
  unfold drop_halt. destruct (rev c) as [|x r] eqn:E; auto. intros L.
  assert (X : c = rev r ++ [x]) by (rewrite <- (rev_involutive c), E; reflexivity).
  assert (D : forall z, (match z with 43%Z => rev r | _ => c end = rev r /\ z = 43%Z) \/ match z with 43%Z => rev r | _ => c end = c).
  { intros z. destruct z as [|q|q]; auto. repeat (destruct q as [q|q|]; auto). }
  destruct (D x) as [(D1 & D2)|D1]; rewrite D1 in *; auto. rewrite X. apply nth_error_app1. exact L.
Qed.

(** By name: [s'] comes from [s] by any host operations and successful compiles.
    Index lookups that succeeded give the same index; so do the entry points of
    functions; the code keeps all its bytes but the final TINY_OP_HALT. *)
Theorem compiled_stays : forall s s', reachable s -> steps s s' ->
  (forall name, (get_function_index s name >= 0)%Z -> get_function_index s' name = get_function_index s name) /\
  (forall name, (get_global_index s name >= 0)%Z -> get_global_index s' name = get_global_index s name) /\
  (forall name i pc, get_function_index s name = Z.of_nat i ->
     nth_error (k_fpcs s) i = Some (Some pc) -> nth_error (k_fpcs s') i = Some (Some pc)) /\
  (forall p, S p < length (k_code s) -> nth_error (k_code s') p = nth_error (k_code s) p) /\
  (forall i x, nth_error (tb_strings (k_tbl s)) i = Some x -> nth_error (tb_strings (k_tbl s')) i = Some x).
Proof.
  intros s s' Rs Ss. pose proof (reachable_loaded _ Rs) as L. pose proof (steps_loaded _ _ Ss _ L) as L'.
  pose proof (steps_later _ _ Ss _ L) as [Ex St _ Hi Co En]. destruct (ex_labels _ _ Ex) as (ns & Lb).
  split; [|split; [|split; [|split]]].
  - intros name G. rewrite !func_by_label in *. rewrite Lb. apply label_stays. exact G.
  - intros name G. rewrite !glob_by_label in *. rewrite Lb. apply label_stays. exact G.
  - intros name i pc E N. unfold get_function_index in E.
    destruct (find _ _) as [[f n b]|] eqn:F; [|lia]. apply find_some in F as (I & B). cbn [sy_body] in *.
    destruct b; try discriminate B. apply Nat2Z.inj in E. subst index.
    assert (Y : sym_at (k_tbl s) f = Some (mkSym f n (SyFunc i args locals ret))) by (apply (in_sym_at _ _ (gd_unique _ _ (ld_good _ _ L)) I)).
    assert (J : In f (funs (tb_syms (k_tbl s)))) by (apply in_flat_map; eexists; split; [exact I|left; reflexivity]).
    pose proof (ld_funs _ _ L) as Pm. rewrite app_nil_r in Pm. apply (Permutation.Permutation_in _ Pm) in J.
    apply in_map_iff in J as ([f' bd] & Ef & J). cbn in Ef. subst f'.
    assert (X : entry (k_tbl s) s f pc) by (exists i; split; [unfold findex; rewrite Y; reflexivity|exact N]).
    destruct (En _ _ _ J X) as (j & Ej & Nj).
    assert (Ei : findex (k_tbl s') f = Some i) by (eapply findex_ext; [exact Ex|unfold findex; rewrite Y; reflexivity]).
    congruence.
  - intros p Lp. destruct (drop_halt_all _ _ L p Lp) as (Ld & ->). destruct Co as (C1 & C2).
    assert (Lq : p < length (drop_halt (k_code s'))) by (unfold plen in C1; lia).
    rewrite (drop_halt_prefix _ _ Lq).
    specialize (C2 (Z.of_nat p) ltac:(unfold plen; lia)). unfold byte_at in C2.
    destruct (Z.ltb_spec (Z.of_nat p) 0) as [|_]; [lia|]. rewrite Nat2Z.id in C2.
    destruct (nth_error (drop_halt (k_code s)) p), (nth_error (drop_halt (k_code s')) p); cbn in C2; congruence.
  - intros i x E. destruct St as (w & ->). rewrite nth_error_app1; auto. apply nth_error_Some. congruence.
Qed.
Print Assumptions compiled_stays.


(** By behaviour: a call of function number [f] that the program of [s] gives a
    result (or lets run for ever) has the same result in every later state [s'],
    on the same thread or on one that differs only in having the global variables
    added since ([extra]); these it leaves alone. *)
Theorem behaviour_stays : forall {H} s s' (callees : nat -> list value -> fprog H) props n f args st t t' extra,
  ready s -> steps s s' -> ready s' ->
  let P := program_of s callees in
  let M := machine_of s callees props in
  let M' := machine_of s' callees props in
  t_globs t = Some (s_globs st) -> t_heap t = s_heap st -> t_next t = s_next st -> t_host t = s_host st ->
  length (t_stk t) <= 128 ->
  t_globs t' = Some (s_globs st ++ extra) -> t_heap t' = t_heap t -> t_next t' = t_next t -> t_host t' = t_host t ->
  length (t_stk t') = length (t_stk t) -> length (t_frames t') = length (t_frames t) ->
  match call_back P (enter_fn P n) (length (t_frames t)) (length (t_stk t)) f args st with
  | Ok (v, st1) => exists t1 t1', calls M no_poll t f args (Ok (v, t1)) /\ calls M' no_poll t' f args (Ok (v, t1')) /\
      t_globs t1 = Some (s_globs st1) /\ t_globs t1' = Some (s_globs st1 ++ extra) /\
      t_heap t1' = t_heap t1 /\ t_host t1' = t_host t1 /\ t_stk t1' = t_stk t' /\ t_frames t1' = t_frames t'
  | Fuel => forall k, k < n -> call_function M no_poll k t f args = Fuel /\ call_function M' no_poll k t' f args = Fuel
  | _ => True
  end.
Proof.
  intros H s s' callees props n f args st t t' extra R S R' P M M' G1 G2 G3 G4 Rm G1' G2' G3' G4' Ls Lf.
  set (P' := program_of s' callees).
  assert (L : loaded [] s).
  { destruct R as (n0 & mods & file & src & ts & s0 & Rr & Hm & E & _). eapply compile_reachable; eauto. }
  pose proof (steps_loaded _ _ S _ L) as L'. pose proof (steps_later _ _ S _ L) as [Ex St Ct (ts & Hi) Co En].
  set (st' := mkS (s_globs st ++ extra) (s_heap st) (s_next st) (s_host st)).
  assert (Rel : rel (vmore extra) (call_back P (enter_fn P n) (length (t_frames t)) (length (t_stk t)) f args st)
    (call_back P' (enter_fn P' n) (length (t_frames t)) (length (t_stk t)) f args st')).
  { apply call_back_rel; try reflexivity.
    - apply (ld_good _ _ L).
    - apply (gd_unique _ _ (ld_good _ _ L')).
    - exact Ex.
    - exact St.
    - exact (Ct NGlob).
    - intros g b. cbn [P P' program_of p_body]. rewrite Hi, flat_map_app. unfold find_body. rewrite find_app.
      destruct (find _ _); auto. discriminate.
    - split; auto. }
  pose proof (host_call_computes s callees props n f args st t R G1 G2 G3 G4 Rm) as X.
  pose proof (host_call_computes s' callees props n f args st' t' R' G1' ltac:(cbn; congruence) ltac:(cbn; congruence)
    ltac:(cbn; congruence) ltac:(rewrite Ls; exact Rm)) as X'.
  cbv zeta in X, X'. fold P M in X. fold P' M' in X'. rewrite Ls, Lf in X'.
  destruct (call_back P (enter_fn P n) (length (t_frames t)) (length (t_stk t)) f args st) as [[v st1]| | |]; auto.
  - destruct Rel as ([v' st1'] & Er & (Ev & (Q1 & Q2 & Q3 & Q4))). cbn [fst snd] in *. subst v'. rewrite Er in X'.
    destruct X as (t1 & C1 & _ & _ & _ & _ & _ & X1 & X2 & X3). destruct X' as (t1' & C1' & _ & _ & Y4 & Y5 & _ & Y1 & Y2 & Y3).
    exists t1, t1'. repeat split; auto; try congruence; try apply C1; try apply C1'.
  - cbn in Rel. rewrite Rel in X'. auto.
Qed.
Print Assumptions behaviour_stays.

(** A second program compiled into the state of [demo_src] *)
Definition more_src : text := text_of
"func twice(n: int): int { return fact(n) * 2 }
extra := twice(4)".
Definition more_start : cres kst (list tstmt) := compile_string 100 (fun _ _ _ _ => CAbort) None more_src demo_state.
Definition more_state : kst := Eval vm_compute in match more_start with COk _ s => s | _ => init_kst end.
Definition more_ts : list tstmt := Eval vm_compute in match more_start with COk ts _ => ts | _ => [] end.
Lemma more_compiles : compile_string 100 (fun _ _ _ _ => CAbort) None more_src demo_state = COk more_ts more_state.
Proof. vm_cast_no_check (eq_refl (COk more_ts more_state)). Qed.

Lemma steps_snoc a b : steps a b -> forall c, steps b c -> steps a c.
Proof.
  induction 1 as [x|k o x x1 x2 E1 S IH|k m f r ts1 x x1 x2 Hm1 E1 S IH]; intros c T; auto.
  - eapply st_host; eauto.
  - eapply st_compile; eauto.
Qed.
Lemma ready_reachable s : ready s -> reachable s.
Proof.
  intros (n & mods & file & src & ts & s0 & (c & Ec & S) & Hm & E & _). exists c. split; auto.
  apply (steps_snoc _ _ S). exact (st_compile n mods file src ts s0 s s Hm E (st_refl s)).
Qed.
Lemma no_macros : forall (m : text) (args : list text) (as_ : option text) (x : kst) b x', (CAbort : cres kst bool) = COk b x' -> steps x x'.
Proof. discriminate. Qed.

Example compiled_twice : reachable demo_state /\ steps demo_state more_state /\ ready more_state /\
  map (get_function_index demo_state) [text_of "fact"; text_of "half"; text_of "twice"] = [0; 1; -1]%Z /\
  map (get_function_index more_state) [text_of "fact"; text_of "half"; text_of "twice"] = [0; 1; 2]%Z /\
  map (get_global_index more_state) [text_of "r"; text_of "s"; text_of "extra"] = [0; 1; 7]%Z.
Proof.
  assert (R : reachable demo_state) by (apply ready_reachable; exact demo_ready).
  split; [exact R|]. split.
  { refine (st_compile 100 (fun _ _ _ _ => CAbort) None more_src more_ts demo_state more_state more_state _ more_compiles (st_refl _)).
    exact no_macros. }
  split.
  { exists 100, (fun _ _ _ _ => CAbort), None, more_src, more_ts, demo_state. split; [exact R|]. split; [exact no_macros|].
    split; [exact more_compiles|]. vm_compute. repeat split. }
  vm_compute. auto.
Qed.

(** ... and the theorem about it: fact(5) on the thread that ran the first program *)
Example fact_stays :
  let st := mkS [VInt 120; VInt 18; VInt 7; VNull; VBool true; VInt (-2); VNull] [] 0 [] in
  let P := program_of demo_state demo_callees in
  call_back P (enter_fn P 20) 0 0 0%Z [VInt 5] st = Ok (VInt 120, st).
Proof. vm_compute. reflexivity. Qed.
