(** * A run with collection that ends well is the run without *)
From Verif Require Import Base Values Code Heap GCSpec GCProofs VM VMBasics VMSpec VMInv VMFrame VMProofs VMProps GCTransSpec GCTrans.
Local Open Scope nat_scope.

(** Where the left ends well the right ends the same. *)
Definition osim {A B} (P : A -> B -> Prop) (x : outcome A) (y : outcome B) : Prop :=
  match x with
  | Ok a => exists b, y = Ok b /\ P a b
  | Abort => y = Abort
  | UB | Fuel => True
  end.

Lemma osim_bind {A B A' B'} (P : A -> B -> Prop) (Q : A' -> B' -> Prop) x y f g :
  osim P x y -> (forall a b, x = Ok a -> P a b -> osim Q (f a) (g b)) -> osim Q (obind x f) (obind y g).
Proof. destruct x; simpl; auto; [intros (b & -> & Pb) K; apply K; auto|intros ->; auto]. Qed.

Section Sound.
Context {H : Type} (M : machine H) (poll : nat -> nat -> bool).
Notation thread := (thread H).
Notation N := (m_natives M).
Notation R := (@same_but_garbage H).
Hypothesis Silent : silent_finalizers M.

Lemma vmono h h' a b : hle h h' -> osim eq (values_equal h a b) (values_equal h' a b).
Proof.
  intros L.
  assert (S : forall v x, str_content h v = Ok x -> str_content h' v = Ok x).
  { intros v x. unfold str_content. destruct v; auto. destruct (hget h id) eqn:E; [|discriminate]. rewrite (L _ _ E). auto. }
  assert (A : forall v x, to_addr h v = Ok x -> to_addr h' v = Ok x).
  { intros v x. unfold to_addr. destruct v; auto. destruct (hget h id) eqn:E; [|discriminate]. rewrite (L _ _ E). auto. }
  destruct a, b; unfold values_equal; cbn [osim]; eauto;
  repeat match goal with
  | |- osim _ (match str_content h ?v with _ => _ end) _ =>
      let E := fresh in destruct (str_content h v) as [[]| | |] eqn:E; cbn [osim]; auto; apply S in E; rewrite E
  | |- osim _ (match to_addr h ?v with _ => _ end) _ =>
      let E := fresh in destruct (to_addr h v) eqn:E; cbn [osim]; auto; apply A in E; rewrite E
  end; cbn [osim]; eauto.
Qed.

Section Step.
Variables callT callU : thread -> Z -> list value -> outcome (value * thread).
Definition vpost (x y : value * thread) : Prop := fst x = fst y /\ R (snd x) (snd y).
Hypothesis Call : forall t u f a, thread_ok t -> R t u -> osim vpost (callT t f a) (callU u f a).
Hypothesis CallOK : forall t f a v t', thread_ok t -> callT t f a = Ok (v, t') -> thread_ok t'.

Lemma fprog_snd p : forall t u, thread_ok t -> R t u -> osim vpost (run_fprog M callT p t) (run_fprog M callU p u).
Proof.
  induction p as [v| | |k IH|w k IH|v k IH|s k IH|a p k IH|i k IH|i v k IH|f a k IH];
    intros t u OK Rt; cbn [run_fprog osim]; auto.
  - eexists. split; [reflexivity|]. split; auto.
  - replace (t_host u) with (t_host t) by apply Rt. apply IH; auto.
  - destruct (sim_shape _ _ Rt) as (h & n & m & -> & L). apply IH; auto. apply (sim_make (with_host t w)); auto.
  - destruct (ref_of v) as [id|]; cbn [osim]; auto. destruct (hget (t_heap t) id) as [o|] eqn:Ho; cbn [osim]; auto.
    assert (hget (t_heap u) id = Some o) as -> by (apply Rt; auto). apply IH; auto.
  - destruct (sim_alloc t u (BStr s) Rt) as (R' & E').
    change (osim vpost (run_fprog M callT (k (VStr (fst (alloc t (BStr s))))) (snd (alloc t (BStr s))))
       (run_fprog M callU (k (VStr (fst (alloc u (BStr s))))) (snd (alloc u (BStr s))))).
    rewrite <- E'. apply IH; auto. exact (ok3_alloc _ _ _ _ OK).
  - destruct (sim_alloc t u (BNative a p) Rt) as (R' & E').
    replace (t_pc u) with (t_pc t) by apply Rt. unfold oassert. destruct (0 <=? t_pc t)%Z; cbn [osim]; auto.
    change (osim vpost (run_fprog M callT (k (VNative (fst (alloc t (BNative a p))))) (snd (alloc t (BNative a p))))
       (run_fprog M callU (k (VNative (fst (alloc u (BNative a p))))) (snd (alloc u (BNative a p))))).
    rewrite <- E'. apply IH; auto. exact (ok3_alloc _ _ _ _ OK).
  - assert (get_global M u i = get_global M t i) as ->.
    { unfold get_global, glob_at. replace (t_globs u) with (t_globs t) by apply Rt. reflexivity. }
    destruct (get_global M t i); cbn [osim]; auto.
  - destruct (sim_shape _ _ Rt) as (h & n & m & -> & L). unfold set_global, oassert, glob_put. cbn [with_gc t_globs].
    destruct (_ && _)%bool; cbn [osim]; auto. destruct (t_globs t) as [g|]; cbn [osim]; auto.
    destruct (_ <? _); cbn [osim]; auto. apply IH; auto. apply (sim_make (with_globs t (Some (update g (Z.to_nat i) v)))); auto.
  - specialize (Call t u f a OK Rt). destruct (callT t f a) as [[v t1]| | |] eqn:C; cbn [osim] in *; auto.
    + destruct Call as ([v' u1] & -> & Ev & R1). cbn [fst snd] in *. subst v'. apply IH; auto. eapply CallOK; eauto.
    + rewrite Call. auto.
Qed.

Ltac keep := match goal with |- exists b, Ok ?x = Ok b /\ _ => exists x; split; [reflexivity|] end.

Lemma push_snd (t u : thread) v : R t u -> osim R (push M t v) (push M u v).
Proof.
  intros Rt. destruct (sim_shape _ _ Rt) as (h & n & m & -> & L). unfold push. cbn [t_stk with_gc].
  destruct (room M _); cbn [osim]; auto. keep. apply (sim_make (with_stk t (v :: t_stk t))); auto.
Qed.
Lemma stk_snd (t u : thread) s : R t u -> R (with_stk t s) (with_stk u s).
Proof. intros Rt. destruct (sim_shape _ _ Rt) as (h & n & m & -> & L). apply (sim_make (with_stk t s)); auto. Qed.
Lemma pc_snd (t u : thread) s : R t u -> R (with_pc t s) (with_pc u s).
Proof. intros Rt. destruct (sim_shape _ _ Rt) as (h & n & m & -> & L). apply (sim_make (with_pc t s)); auto. Qed.
Lemma ret_snd (t u : thread) s : R t u -> R (with_ret t s) (with_ret u s).
Proof. intros Rt. destruct (sim_shape _ _ Rt) as (h & n & m & -> & L). apply (sim_make (with_ret t s)); auto. Qed.
Lemma ctl_snd (t u : thread) a b c d : R t u -> R (with_ctl t a b c d) (with_ctl u a b c d).
Proof. intros Rt. destruct (sim_shape _ _ Rt) as (h & n & m & -> & L). apply (sim_make (with_ctl t a b c d)); auto. Qed.
Lemma pop_snd (t u : thread) : R t u -> osim vpost (pop t) (pop u).
Proof.
  intros Rt. destruct (sim_shape _ _ Rt) as (h & n & m & -> & L). unfold pop. cbn [t_stk with_gc].
  destruct (t_stk t); cbn [osim]; auto. keep. split; auto. apply (sim_make (with_stk t l)); auto.
Qed.
Lemma glob_put_snd (t u : thread) i v : R t u -> osim R (glob_put t i v) (glob_put u i v).
Proof.
  intros Rt. destruct (sim_shape _ _ Rt) as (h & n & m & -> & L). unfold glob_put. cbn [t_globs with_gc].
  destruct (t_globs t) as [g|]; cbn [osim]; auto. destruct (_ <? _); cbn [osim]; auto. keep.
  apply (sim_make (with_globs t (Some (update g (Z.to_nat i) v)))); auto.
Qed.
Lemma pop_indir_snd (t u : thread) : R t u -> osim R (pop_indir t) (pop_indir u).
Proof.
  intros Rt. destruct (sim_shape _ _ Rt) as (h & n & m & -> & L). unfold pop_indir. cbn [t_stk t_frames t_fp with_gc].
  destruct (t_frames t) as [|f fr]; cbn [osim]; auto. destruct (_ <=? _); cbn [osim]; auto.
  destruct (cut _ _); cbn [osim]; auto. destruct (cut _ _); cbn [osim]; auto. keep.
  apply sim_make with (t := with_ctl t _ _ _ _); auto.
Qed.

Lemma exec_snd i t u : thread_ok t -> R t u -> osim R (exec M callT i t) (exec M callU i u).
Proof.
  intros OK Rt.
  assert (Es : t_stk u = t_stk t) by (symmetry; apply Rt).
  destruct i as [ |n0| | |k| | |k|k|k|k|n0|k|k|o| | | | |k|k|k|k|n0 f| | |n0 f|k|k|k| |];
    cbn [exec]; rewrite ?Es; try (apply push_snd; exact Rt).
  - destruct (room M _); cbn [osim]; auto. keep. apply stk_snd; auto.
  - destruct (k <? 0)%Z; cbn [osim]; auto. destruct (nth_error _ _); cbn [osim]; auto. apply push_snd; auto.
  - destruct (k <? 0)%Z; cbn [osim]; auto. destruct (nth_error _ _); cbn [osim]; auto. apply push_snd; auto.
  - unfold oassert. destruct (0 <? n0)%Z; cbn [osim]; auto. destruct (_ <=? _); cbn [osim]; auto.
    set (b := BStruct (top_args (t_stk t) (Z.to_nat n0))).
    destruct (sim_alloc t u b Rt) as (R' & E').
    change (osim R
      (push M (with_stk (snd (alloc t b)) (skipn (Z.to_nat n0) (t_stk t))) (VStruct (fst (alloc t b))))
      (push M (with_stk (snd (alloc u b)) (skipn (Z.to_nat n0) (t_stk t))) (VStruct (fst (alloc u b))))).
    rewrite <- E'. apply push_snd. apply stk_snd. auto.
  - destruct (t_stk t) as [|v s] eqn:S; cbn [osim]; auto. destruct v; cbn [osim]; auto.
    destruct (hget (t_heap t) id) as [o|] eqn:Ho; cbn [osim]; auto.
    assert (hget (t_heap u) id = Some o) as -> by (apply Rt; auto).
    destruct o as [oi om [ | |fs]]; cbn [osim]; auto. destruct (nth_error fs _); cbn [osim]; auto.
    keep. apply stk_snd; auto.
  - destruct (t_stk t) as [|v [|v2 s]] eqn:S; cbn [osim]; auto; destruct v; cbn [osim]; auto.
    destruct (hget (t_heap t) id) as [o|] eqn:Ho; cbn [osim]; auto.
    assert (Hu : hget (t_heap u) id = Some o) by (apply Rt; auto). rewrite Hu.
    destruct o as [oi om [ | |fs]]; cbn [osim]; auto. destruct (_ <? _); cbn [osim]; auto. keep.
    destruct (sim_shape _ _ Rt) as (h & n & m & -> & L). unfold same_but_garbage. cbn.
    repeat (split; [reflexivity|]). intros y o. rewrite !hget_hset by reflexivity.
    destruct (Nat.eqb_spec id y) as [->|Ne]; [|apply L]. rewrite Ho. cbn in Hu. rewrite Hu. auto.
  - destruct (t_stk t) as [|b [|a s]] eqn:S; cbn [osim]; auto.
    destruct (do_bin o a b); cbn [obind osim]; auto. keep. apply stk_snd; auto.
  - destruct (t_stk t) as [|a s] eqn:S; cbn [osim]; auto.
    destruct (add_raw 1 a); cbn [obind osim]; auto. keep. apply stk_snd; auto.
  - destruct (t_stk t) as [|a s] eqn:S; cbn [osim]; auto.
    destruct (add_raw (-1) a); cbn [obind osim]; auto. keep. apply stk_snd; auto.
  - destruct (t_stk t) as [|b [|a s]] eqn:S; cbn [osim]; auto.
    eapply osim_bind; [apply vmono; red; apply Rt|]. intros r r' _ ->. cbn [osim]. keep. apply stk_snd; auto.
  - destruct (t_stk t) as [|a s] eqn:S; cbn [osim]; auto.
    destruct (expect_bool a); cbn [obind osim]; auto. keep. apply stk_snd; auto.
  - eapply osim_bind; [apply pop_snd; auto|]. intros [v t1] [v' u1] _ (Ev & R1). cbn [fst snd] in *. subst v'.
    apply glob_put_snd; auto.
  - assert (glob_at u k = glob_at t k) as ->.
    { unfold glob_at. replace (t_globs u) with (t_globs t) by apply Rt. reflexivity. }
    destruct (glob_at t k); cbn [obind osim]; auto. apply push_snd; auto.
  - cbn [osim]. keep. apply pc_snd; auto.
  - eapply osim_bind; [apply pop_snd; auto|]. intros [v t1] [v' u1] _ (Ev & R1). cbn [fst snd] in *. subst v'.
    destruct (expect_bool v) as [[]| | |]; cbn [obind osim]; auto; keep; auto. apply pc_snd; auto.
  - unfold push_indir, oassert. replace (t_frames u) with (t_frames t) by apply Rt. replace (t_pc u) with (t_pc t) by apply Rt.
    replace (t_fp u) with (t_fp t) by apply Rt. rewrite Es.
    destruct (_ <? _); cbn [obind osim]; auto. destruct (nth_error _ _); cbn [osim]; auto. keep. apply pc_snd, ctl_snd; auto.
  - apply pop_indir_snd, ret_snd; auto.
  - eapply osim_bind; [apply pop_snd; auto|]. intros [v t1] [v' u1] _ (Ev & R1). cbn [fst snd] in *. subst v'.
    apply pop_indir_snd, ret_snd; auto.
  - destruct (_ <=? _); cbn [osim]; auto. destruct (nth_error (m_foreign M) _); cbn [osim]; auto.
    eapply osim_bind; [apply fprog_snd; auto|]. intros [v t1] [v' u1] _ (Ev & R1). cbn [fst snd] in *. subst v'.
    replace (t_stk u1) with (t_stk t1) by apply R1. destruct (cut _ _); cbn [obind osim]; auto. keep. apply ret_snd, stk_snd; auto.
  - replace (t_fp u) with (t_fp t) by apply Rt. destruct (slot _ _); cbn [obind osim]; auto. apply push_snd; auto.
  - replace (t_fp u) with (t_fp t) by apply Rt. destruct (slot _ _); cbn [obind osim]; auto. apply push_snd; auto.
  - eapply osim_bind; [apply pop_snd; auto|]. intros [v t1] [v' u1] _ (Ev & R1). cbn [fst snd] in *. subst v'.
    replace (t_fp u) with (t_fp t) by apply Rt. replace (t_stk u1) with (t_stk t1) by apply R1.
    destruct (set_slot _ _ _); cbn [obind osim]; auto. keep. apply stk_snd; auto.
  - replace (t_ret u) with (t_ret t) by apply Rt. apply push_snd; auto.
  - cbn [osim]. keep. apply pc_snd; auto.
Qed.

Definition bpost (x y : bool * thread) : Prop := fst x = fst y /\ R (snd x) (snd y).

Lemma cycle_snd t u : thread_ok t -> R t u ->
  osim bpost (cycle M callT poll t) (cycle M callU no_poll u).
Proof.
  intros OK Rt. unfold cycle. replace (t_pc u) with (t_pc t) by apply Rt.
  destruct (_ <? _)%Z; cbn [osim]. { eexists; split; [reflexivity|split; auto]. }
  destruct (decode _ _) as [[i nx]| | |]; cbn [obind osim]; auto.
  eapply osim_bind; [apply exec_snd; [exact OK|apply pc_snd; auto]|]. intros t1 u1 E1 R1. cbn [no_poll obind].
  assert (OK1 : thread_ok t1).
  { eapply (exec_PT M ok3 ok3_alloc ok3_set _) in E1; [exact E1| |exact OK].
    intros. eapply CallOK; eauto. }
  destruct (poll _ _); [|cbn [obind osim]; eexists; split; [reflexivity|split; auto]].
  destruct (gc M t1) as [t2| | |] eqn:G; cbn [obind osim]; auto.
  - eexists; split; [reflexivity|]. split; auto. cbn [snd].
    pose proof (gc_frame _ _ _ G) as (F1 & F2 & F3 & F4 & F5 & F6 & F7).
    pose proof (gc_exact_L M poll t1 t2 OK1 G) as (_ & dead & _ & _ & W & _).
    rewrite (finalize_silent M Silent) in W.
    destruct R1 as (A1 & A2 & A3 & A4 & A5 & A6 & A7 & A8 & L). unfold same_but_garbage.
    rewrite F1, F2, F3, F4, F5, F6, F7, W. repeat (split; [assumption|]).
    intros id o Ho. apply L. eapply gc_heap; eauto.
  - exfalso. unfold gc in G. destruct (roots M t1); try discriminate. destruct (collect _ _ _ _ _) as [[[[]]]| | |] eqn:C; try discriminate.
    unfold collect in C. destruct (mark_all _ _ _ _ _) eqn:X; try discriminate.
    + destruct (sweep _ _ _ _) as [[]]. discriminate.
    + eapply marks_not_abort; eauto.
Qed.
End Step.

Lemma enter_snd (t u : thread) f a : R t u -> osim R (enter_call M t f a) (enter_call M u f a).
Proof.
  intros Rt. unfold enter_call, oassert. destruct (0 <=? f)%Z; cbn [osim]; auto.
  assert (R1 : R (alloc_globals M t) (alloc_globals M u)).
  { destruct (sim_shape _ _ Rt) as (h & n & m & -> & L). unfold alloc_globals. cbn [t_globs with_gc].
    destruct (t_globs t); [exact Rt|].
    apply (sim_make (with_globs t (Some (repeat VNull (m_nglobals M))))); auto. }
  revert R1. generalize (alloc_globals M t) (alloc_globals M u). intros t1 u1 R1.
  replace (t_stk u1) with (t_stk t1) by apply R1.
  destruct (room M _); cbn [osim]; auto. destruct (nth_error _ _); cbn [osim]; auto.
  unfold push_indir, oassert. cbn [with_pc with_stk t_frames t_pc t_stk t_fp].
  replace (t_frames u1) with (t_frames t1) by apply R1. replace (t_fp u1) with (t_fp t1) by apply R1.
  destruct (_ <? _); cbn [osim]; auto. eexists. split; [reflexivity|]. apply ctl_snd, pc_snd, stk_snd; auto.
Qed.

Lemma leave_snd (t u t1 u1 : thread) : R t u -> R t1 u1 -> osim vpost (leave_call t t1) (leave_call u u1).
Proof.
  intros Rt R1. unfold leave_call.
  replace (t_stk u1) with (t_stk t1) by apply R1. replace (t_stk u) with (t_stk t) by apply Rt.
  destruct (cut (t_stk t1) _) as [s| | |]; cbn [obind osim]; auto.
  replace (t_frames u1) with (t_frames t1) by apply R1. replace (t_frames u) with (t_frames t) by apply Rt.
  destruct (_ <=? _); cbn [osim]; auto.
  replace (t_pc u) with (t_pc t) by apply Rt. replace (t_fp u) with (t_fp t) by apply Rt.
  replace (t_ret u) with (t_ret t) by apply Rt.
  eexists; split; [reflexivity|]. split; [apply R1|]. cbn [snd]. apply ret_snd, ctl_snd; auto.
Qed.

Lemma loop_snd : forall n floor t u, thread_ok t -> R t u ->
  osim R (loop M poll n floor t) (loop M no_poll n floor u).
Proof.
  induction n as [|n IH]; intros floor t u OK Rt.
  - simpl. replace (t_frames u) with (t_frames t) by apply Rt.
    destruct (match floor with Some fc => _ | None => _ end); cbn [osim]; eauto.
  - rewrite !loop_S. replace (t_frames u) with (t_frames t) by apply Rt.
    destruct (match floor with Some fc => _ | None => _ end); cbn [osim]; eauto.
    eapply osim_bind.
    + apply cycle_snd; auto.
      * intros t0 u0 f a OK0 R0. unfold call_function. replace (t_frames u0) with (t_frames t0) by apply R0.
        eapply osim_bind; [apply enter_snd; auto|]. intros t1 u1 E1 R1.
        eapply osim_bind; [apply IH; [|exact R1]|].
        -- eapply (enter_PT M ok3); eauto.
        -- intros t2 u2 _ R2. apply leave_snd; auto.
      * intros t0 f a v t' OK0 C. eapply (call_PT M poll ok3); eauto using ok3_alloc, ok3_set.
        intros; eapply ok3_gc; eauto.
    + intros [b t1] [b' u1] E (Eb & R1). cbn [fst snd] in *. subst b'. destruct b.
      * apply IH; auto. eapply (execute_cycle_PT M poll ok3) with (fuel := n); eauto using ok3_alloc, ok3_set.
        intros; eapply ok3_gc; eauto.
      * cbn [osim]. eauto.
Qed.
End Sound.
