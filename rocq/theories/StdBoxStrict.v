(** * Replacing foreign functions by ones that do the same unless the first are
    undefined *)
From Verif Require Import Base Float64 Values Heap Code VM VMSpec Array Dict Std StdSpec StdBox StdBoxGC.
Local Open Scope nat_scope.

Definition ole {A} (a b : outcome A) : Prop := a = UB \/ a = Fuel \/ a = b.

Lemma ole_refl {A} (a : outcome A) : ole a a.
Proof. right. right. reflexivity. Qed.
Lemma ole_bind {A B} (a b : outcome A) (f g : A -> outcome B) : ole a b -> (forall x, ole (f x) (g x)) ->
  ole (x <- a ;; f x)%outcome (x <- b ;; g x)%outcome.
Proof. intros [->|[->| ->]] K; [left; reflexivity|right; left; reflexivity|]. destruct b; cbn [obind]; auto; right; right; reflexivity. Qed.

Section Le.
Context {H : Type}.

Definition with_foreign (M : machine H) (fs : list (list value -> fprog H)) : machine H :=
  mkMachine H (m_code M) (m_strings M) (m_fpcs M) fs (m_nglobals M) (m_natives M) (m_stack M) (m_depth M).

Variable M : machine H.
Variable gs : list (list value -> fprog H).
Notation M' := (with_foreign M gs).
Hypothesis LE : Forall2 (fun f g => forall callf args t, ole (run_fprog M callf (f args) t) (run_fprog M callf (g args) t)) (m_foreign M) gs.

Lemma run_fprog_le c1 c2 p : (forall t f a, ole (c1 t f a) (c2 t f a)) -> forall t, ole (run_fprog M c1 p t) (run_fprog M' c2 p t).
Proof.
  intros C. induction p as [v| | |k IH|w k IH|v k IH|s k IH|a pr k IH|i k IH|i v k IH|f a k IH]; intros t; cbn [run_fprog]; try apply ole_refl.
  - apply IH.
  - apply IH.
  - destruct (ref_of v); [|apply ole_refl]. destruct (hget (t_heap t) n); [apply IH|apply ole_refl].
  - apply IH.
  - unfold oassert. destruct (0 <=? t_pc t)%Z; [apply IH|apply ole_refl].
  - change (get_global M' t i) with (get_global M t i). destruct (get_global M t i); try apply ole_refl. apply IH.
  - change (set_global M' t i v) with (set_global M t i v). destruct (set_global M t i v); try apply ole_refl. apply IH.
  - destruct (C t f a) as [->|[->| ->]]; [left; reflexivity|right; left; reflexivity|]. destruct (c2 t f a) as [(v & t')| | |]; try apply ole_refl. apply IH.
Qed.

Lemma exec_le c1 c2 i t : (forall t f a, ole (c1 t f a) (c2 t f a)) -> ole (exec M c1 i t) (exec M' c2 i t).
Proof.
  intros C. destruct i; try (apply ole_refl; fail). cbn [exec].
  destruct (Z.to_nat nargs <=? length (t_stk t)); [|apply ole_refl].
  destruct (nth_error (m_foreign M) (Z.to_nat f)) as [fn|] eqn:E.
  - assert (X : exists g, nth_error gs (Z.to_nat f) = Some g /\ forall callf args t, ole (run_fprog M callf (fn args) t) (run_fprog M callf (g args) t)).
    { revert E. generalize (Z.to_nat f). clear -LE. induction LE; intros [|n] E; cbn in *; try discriminate; [injection E as <-; eauto|eauto]. }
    destruct X as (g & Eg & Lg). cbn [m_foreign with_foreign]. rewrite Eg. apply ole_bind.
    + destruct (Lg c1 (top_args (t_stk t) (Z.to_nat nargs)) t) as [->|[->| ->]]; [left; reflexivity|right; left; reflexivity|]. apply run_fprog_le. exact C.
    + intros (v & t1). apply ole_refl.
  - left. reflexivity.
Qed.

Lemma cycle_le c1 c2 poll t : (forall t f a, ole (c1 t f a) (c2 t f a)) -> ole (cycle M c1 poll t) (cycle M' c2 poll t).
Proof.
  intros C. unfold cycle. destruct (t_pc t <? 0)%Z; [apply ole_refl|]. cbn [m_code with_foreign].
  apply ole_bind; [apply ole_refl|]. intros (i & nx). apply ole_bind; [apply exec_le; exact C|]. intros t1.
  apply ole_bind; [|intros t2; apply ole_refl]. destruct (poll (t_nobj t1) (t_max t1)); [|apply ole_refl]. change (gc M' t1) with (gc M t1). apply ole_refl.
Qed.

Lemma loop_le poll fuel : forall floor t, ole (loop M poll fuel floor t) (loop M' poll fuel floor t).
Proof.
  induction fuel as [|fuel IH]; intros floor t; cbn [loop]; destruct (match floor with Some fc => fc <? length (t_frames t) | None => true end); try apply ole_refl.
  apply ole_bind.
  - apply cycle_le. intros t0 f a. apply ole_bind; [change (enter_call M' t0 f a) with (enter_call M t0 f a); apply ole_refl|].
    intros t1. apply ole_bind; [apply IH|intros t2; apply ole_refl].
  - intros (b & t'). destruct b; [apply IH|apply ole_refl].
Qed.

Lemma runs_le poll t o : runs M poll t o -> o <> UB -> runs M' poll t o.
Proof.
  intros (NF & f & E) NU. split; [exact NF|]. exists f. destruct (loop_le poll f None t) as [X|[X|X]].
  - unfold run in E. rewrite X in E. congruence.
  - unfold run in E. rewrite X in E. congruence.
  - unfold run in *. rewrite <- X. exact E.
Qed.
End Le.

Lemma strict_le (M : machine store) place :
  Forall2 (fun f g => forall callf args t, ole (run_fprog M callf (f args) t) (run_fprog M callf (g args) t))
    (lib_functions true place) (lib_functions false place).
Proof.
  assert (AC : forall callf args o t, ole (run_fprog M callf (array_call true args o) t) (run_fprog M callf (array_call false args o) t)).
  { intros callf args o t. unfold array_call, arg. destruct (nth_error args 0) as [v|]; [|apply ole_refl]. unfold with_array.
    destruct v; try apply ole_refl. cbn [run_fprog]. destruct (ref_of (VNative id)); [|apply ole_refl]. destruct (hget (t_heap t) n) as [ob|]; [|apply ole_refl].
    destruct (o_body ob) as [s|a p|fs]; try apply ole_refl. destruct ((p =? 1) || (p =? 2)); [|apply ole_refl]. cbn [run_fprog].
    destruct (cell_at (t_host t) a) as [[x|d]|]; try apply ole_refl. cbn [andb]. destruct (grows_used x o); [left; reflexivity|]. unfold attempt.
    destruct (array_step x o) as [(x' & r)| | |]; try apply ole_refl. cbn [run_fprog]. destruct r as [|v|k]; try apply ole_refl. cbn [answer andb].
    destruct ((p =? 2) && (if ref_of v then true else false)); [left; reflexivity|apply ole_refl]. }
  assert (AA : forall (f g : value -> fprog store) args i callf t, (forall v, ole (run_fprog M callf (f v) t) (run_fprog M callf (g v) t)) ->
     ole (run_fprog M callf (arg args i f) t) (run_fprog M callf (arg args i g) t)).
  { intros f g args i callf t A. unfold arg. destruct (nth_error args i); [apply A|apply ole_refl]. }
  assert (RR : forall (f : list value -> fprog store) callf args t, ole (run_fprog M callf (f args) t) (run_fprog M callf (f args) t)) by (intros; apply ole_refl).
  unfold lib_functions.
  constructor; [apply RR|]. constructor; [apply RR|]. constructor; [intros callf args t; apply AC|]. constructor; [intros callf args t; apply AC|].
  constructor; [intros callf args t|]. 2: constructor; [intros callf args t|]. 3: constructor; [intros callf args t|]. 4: constructor; [intros callf args t; apply AC|].
  4: constructor; [intros callf args t; apply AC|]. 4: constructor; [intros callf args t|]. 5: constructor; [intros callf args t|].
  6: constructor; [intros callf args t|]. 7: constructor; [intros callf args t|]. 8: (repeat (constructor; [apply RR|])); constructor.
  - apply AA. intros v. apply AC.
  - apply AA. intros v. apply AC.
  - apply AA. intros v. apply AA. intros u. apply AC.
  - apply AA. intros v. apply AC.
  - apply AA. intros v. apply AA. intros u. apply AC.
  - apply AA. intros v. unfold attempt. destruct (number_to_int v); try apply ole_refl. apply AC.
  - apply AA. intros v. apply AA. intros u. unfold attempt. destruct (number_to_int v); try apply ole_refl. apply AC.
Qed.
