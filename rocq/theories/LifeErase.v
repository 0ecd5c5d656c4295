(** Keeping the log changes nothing else: erasing it turns every run of
    [logged M] into a run of [M], and every history of [M] arises so. *)
From Verif Require Import Base Values Code Heap GCSpec VM VMBasics VMSpec VMInv LifeSpec.
Local Open Scope nat_scope.

Definition omap {A B} (f : A -> B) (o : outcome A) : outcome B :=
  match o with Ok a => Ok (f a) | Abort => Abort | UB => UB | Fuel => Fuel end.
Lemma omap_bind {A B C} (f : B -> C) (m : outcome A) k : omap f (obind m k) = obind m (fun x => omap f (k x)).
Proof. destruct m; reflexivity. Qed.

Section E.
Context {H : Type} (M : machine H) (poll : nat -> nat -> bool).
Let N := logged M.
Notation thr := (thread (H * log)).

Definition erase (t : thr) : thread H :=
  mkThread (t_pc t) (t_fp t) (t_stk t) (t_frames t) (t_ret t) (t_globs t) (t_heap t) (t_next t) (t_nobj t) (t_max t) (fst (t_host t)).
Definition er2 {A} (x : A * thr) : A * thread H := (fst x, erase (snd x)).

Lemma push_er t v : omap erase (push N t v) = push M (erase t) v.
Proof. unfold push. cbn [erase t_stk]. change (room N) with (fun n => room N n). unfold room, N; cbn [m_stack logged].
  destruct (match m_stack M with None => true | Some k => _ end); reflexivity. Qed.
Lemma pop_er (t : thr) : omap er2 (pop t) = pop (erase t).
Proof. unfold pop. cbn [erase t_stk]. destruct (t_stk t); reflexivity. Qed.
Lemma push_indir_er t n : omap erase (push_indir N t n) = push_indir M (erase t) n.
Proof. unfold push_indir. cbn [erase t_frames m_depth N logged]. unfold N; cbn [m_depth logged]. destruct (_ <? _); reflexivity. Qed.
Lemma pop_indir_er (t : thr) : omap erase (pop_indir t) = pop_indir (erase t).
Proof.
  unfold pop_indir. cbn [erase t_frames t_fp t_stk]. destruct (t_frames t); [reflexivity|]. destruct (_ <=? _); [|reflexivity].
  destruct (cut _ _); try reflexivity. destruct (cut _ _); reflexivity.
Qed.
Lemma glob_put_er (t : thr) i v : omap erase (glob_put t i v) = glob_put (erase t) i v.
Proof. unfold glob_put. cbn [erase t_globs]. destruct (t_globs t); [|reflexivity]. destruct (_ <? _); reflexivity. Qed.
Lemma glob_at_er (t : thr) i : glob_at t i = glob_at (erase t) i.
Proof. reflexivity. Qed.
Lemma set_global_er t i v : omap erase (set_global N t i v) = set_global M (erase t) i v.
Proof.
  unfold set_global, oassert. unfold N; cbn [m_nglobals logged]. destruct (_ && _)%bool; [|reflexivity].
  cbn [erase t_globs]. destruct (t_globs t) eqn:G; [|reflexivity]. rewrite glob_put_er. reflexivity.
Qed.
Lemma alloc_globals_er t : erase (alloc_globals N t) = alloc_globals M (erase t).
Proof. unfold alloc_globals. cbn [erase t_globs]. destruct (t_globs t) eqn:G; [reflexivity|]. reflexivity. Qed.

Lemma each_ext {A B} (f g : B -> A -> outcome B) l : (forall h x, f h x = g h x) -> forall h, each f l h = each g l h.
Proof. intros E. induction l as [|a l IH]; intros h; simpl; auto. rewrite E. destruct (g h a); auto. Qed.
Lemma mark_er : forall f w h v, mark (logged_natives (m_natives M)) f w h v = mark (m_natives M) f (fst w) h v.
Proof.
  induction f as [|f IH]; intros w h v; simpl; destruct (ref_of v); auto. destruct (hget h n); auto. destruct (o_mark o); auto.
  change (kids (logged_natives (m_natives M)) w (o_body o)) with (kids (m_natives M) (fst w) (o_body o)).
  rewrite (each_ext _ (mark (m_natives M) f (fst w))); auto.
Qed.
Lemma sweep_er : forall h w n, (let '(h1, w1, n1) := sweep (logged_natives (m_natives M)) h w n in (h1, fst w1, n1)) = sweep (m_natives M) h (fst w) n.
Proof.
  induction h as [|o h IH]; intros w n; simpl; auto. destruct (o_mark o).
  - rewrite <- IH. destruct (sweep _ h w n) as [[? ?] ?]. reflexivity.
  - rewrite IH. f_equal. destruct (o_body o); try reflexivity. simpl. destruct (prop =? 0); reflexivity.
Qed.
Lemma gc_er t : omap erase (gc N t) = gc M (erase t).
Proof.
  unfold gc. change (roots M (erase t)) with (roots N t). destruct (roots N t) as [rs| | |]; try reflexivity.
  unfold collect, mark_all. cbn [erase t_heap t_host t_nobj m_natives]. unfold N; cbn [m_natives logged].
  rewrite (each_ext _ (mark (m_natives M) (mark_fuel (t_heap t)) (fst (t_host t)))); [|intros; apply mark_er].
  destruct (each _ rs (t_heap t)) as [h1| | |]; try reflexivity.
  pose proof (sweep_er h1 (t_host t) (t_nobj t)) as S.
  destruct (sweep (logged_natives _) _ _ _) as [[? ?] ?]. destruct (sweep (m_natives M) _ _ _) as [[? ?] ?]. inversion S; subst. reflexivity.
Qed.

Section C.
Variable callf : thr -> Z -> list value -> outcome (value * thr).
Variable callf' : thread H -> Z -> list value -> outcome (value * thread H).
Hypothesis C_er : forall t f a, omap er2 (callf t f a) = callf' (erase t) f a.

Lemma fprog_er : forall (p : fprog H) t, omap er2 (run_fprog N callf (lift p) t) = run_fprog M callf' p (erase t).
Proof.
  induction p; intros t; cbn [lift run_fprog]; try reflexivity.
  - rewrite H0. reflexivity.
  - rewrite IHp. reflexivity.
  - destruct (ref_of v); [|reflexivity]. cbn [erase t_heap]. destruct (hget _ _); [|reflexivity]. apply H0.
  - cbn [alloc]. rewrite H0. reflexivity.
  - cbn [erase t_pc]. destruct (0 <=? t_pc t)%Z; [|reflexivity]. cbn [oassert alloc run_fprog]. rewrite H0. reflexivity.
  - change (get_global M (erase t) i) with (get_global N t i). destruct (get_global N t i); try reflexivity. apply H0.
  - rewrite <- set_global_er. destruct (set_global N t i v); try reflexivity. apply IHp.
  - rewrite <- C_er. destruct (callf t f args) as [[w t1]| | |]; try reflexivity. apply H0.
Qed.

Lemma exec_er i t : omap erase (exec N callf i t) = exec M callf' i (erase t).
Proof.
  destruct i; cbn [exec]; try (exact (push_er _ _)); try reflexivity;
    change (m_strings N) with (m_strings M); change (m_fpcs N) with (m_fpcs M);
    change (t_stk (erase t)) with (t_stk t); change (t_heap (erase t)) with (t_heap t);
    change (t_fp (erase t)) with (t_fp t).
  - unfold room. change (m_stack N) with (m_stack M).
    destruct (match m_stack M with None => true | Some k => _ end); reflexivity.
  - destruct (_ <? _)%Z; [reflexivity|]. destruct (nth_error _ _); [apply push_er|reflexivity].
  - destruct (_ <? _)%Z; [reflexivity|]. destruct (nth_error _ _); [apply push_er|reflexivity].
  - unfold oassert. destruct (_ <? _)%Z; [|reflexivity]. destruct (_ <=? _); [|reflexivity].
    unfold alloc. rewrite push_er. reflexivity.
  - destruct (t_stk t) as [|[] s]; try reflexivity.
    destruct (hget (t_heap t) id) as [[? ? []]|]; try reflexivity. destruct (nth_error _ _); reflexivity.
  - destruct (t_stk t) as [|[] [|v s]]; try reflexivity.
    destruct (hget (t_heap t) id) as [[? ? []]|]; try reflexivity. destruct (_ <? _); reflexivity.
  - destruct (t_stk t) as [|b [|a s]]; try reflexivity. destruct (do_bin _ _ _); reflexivity.
  - destruct (t_stk t) as [|a s]; try reflexivity. destruct (add_raw _ _); reflexivity.
  - destruct (t_stk t) as [|a s]; try reflexivity. destruct (add_raw _ _); reflexivity.
  - destruct (t_stk t) as [|b [|a s]]; try reflexivity. destruct (values_equal _ _ _); reflexivity.
  - destruct (t_stk t) as [|a s]; try reflexivity. destruct (expect_bool _); reflexivity.
  - rewrite <- pop_er. destruct (pop t) as [[v t1]| | |]; try reflexivity. apply glob_put_er.
  - change (glob_at (erase t) i) with (glob_at t i). destruct (glob_at t i); try reflexivity. apply push_er.
  - rewrite <- pop_er. destruct (pop t) as [[v t1]| | |]; try reflexivity. cbn. destruct (expect_bool v) as [[]| | |]; reflexivity.
  - rewrite <- push_indir_er. destruct (push_indir N t _); try reflexivity. cbn. destruct (nth_error _ _); reflexivity.
  - exact (pop_indir_er _).
  - rewrite <- pop_er. destruct (pop t) as [[v t1]| | |]; try reflexivity. exact (pop_indir_er _).
  - destruct (_ <=? _); [|reflexivity]. unfold N at 1; cbn [m_foreign logged]. rewrite nth_error_map.
    destruct (nth_error (m_foreign M) _) as [g|]; [|reflexivity]. cbn [option_map].
    rewrite <- fprog_er. destruct (run_fprog N callf _ t) as [[v t1]| | |]; try reflexivity. cbn. destruct (cut _ _); reflexivity.
  - destruct (slot _ _); try reflexivity. apply push_er.
  - destruct (slot _ _); try reflexivity. apply push_er.
  - rewrite <- pop_er. destruct (pop t) as [[v t1]| | |]; try reflexivity. cbn. destruct (set_slot _ _ _); reflexivity.
Qed.

Lemma cycle_er t : omap er2 (cycle N callf poll t) = cycle M callf' poll (erase t).
Proof.
  unfold cycle. change (t_pc (erase t)) with (t_pc t). change (m_code N) with (m_code M).
  destruct (_ <? _)%Z; [reflexivity|]. destruct (decode _ _) as [[i nx]| | |]; try reflexivity.
  cbn [obind]. change (with_pc (erase t) nx) with (erase (with_pc t nx)). rewrite <- exec_er.
  destruct (exec N callf i _) as [t1| | |]; try reflexivity. cbn [obind omap].
  change (poll (t_nobj (erase t1)) (t_max (erase t1))) with (poll (t_nobj t1) (t_max t1)).
  destruct (poll _ _); [|reflexivity]. rewrite <- gc_er. destruct (gc N t1); reflexivity.
Qed.
End C.

Lemma enter_er t f a : omap erase (enter_call N t f a) = enter_call M (erase t) f a.
Proof.
  unfold enter_call, oassert. destruct (0 <=? f)%Z; [|reflexivity]. cbv zeta. rewrite <- alloc_globals_er.
  unfold room. change (m_stack N) with (m_stack M). change (m_fpcs N) with (m_fpcs M).
  change (t_stk (erase (alloc_globals N t))) with (t_stk (alloc_globals N t)).
  destruct (match m_stack M with None => true | Some k => _ end); [|reflexivity]. destruct (nth_error _ _); [|reflexivity].
  rewrite push_indir_er. reflexivity.
Qed.
Lemma leave_er (t0 t : thr) : omap er2 (leave_call t0 t) = leave_call (erase t0) (erase t).
Proof. unfold leave_call. cbn [erase t_stk t_frames]. destruct (cut _ _); try reflexivity. cbn [obind]. destruct (_ <=? _); reflexivity. Qed.

Lemma loop_er : forall fuel floor t, omap erase (loop N poll fuel floor t) = loop M poll fuel floor (erase t).
Proof.
  induction fuel as [|f IH]; intros floor t.
  - simpl. destruct (match floor with Some fc => _ | None => _ end); reflexivity.
  - rewrite !loop_S. change (t_frames (erase t)) with (t_frames t).
    destruct (match floor with Some fc => _ | None => _ end); [|reflexivity].
    rewrite <- (cycle_er (call_function N poll f)).
    + destruct (cycle N _ poll t) as [[b t1]| | |]; try reflexivity. cbn [obind omap]. destruct b; [apply IH|reflexivity].
    + intros t0 g a. unfold call_function. rewrite <- enter_er. destruct (enter_call N t0 g a); try reflexivity. cbn [obind omap].
      change (t_frames (erase t0)) with (t_frames t0). rewrite <- IH. destruct (loop N poll f _ a0); try reflexivity. apply leave_er.
Qed.
Lemma call_er fuel t0 g a : omap er2 (call_function N poll fuel t0 g a) = call_function M poll fuel (erase t0) g a.
Proof.
  unfold call_function. rewrite <- enter_er. destruct (enter_call N t0 g a); try reflexivity. cbn [obind omap].
  change (t_frames (erase t0)) with (t_frames t0). rewrite <- loop_er. destruct (loop N poll fuel _ a0); try reflexivity. apply leave_er.
Qed.

Lemma reached_lives t : reached M poll t -> exists tl, lives M poll tl /\ erase tl = t.
Proof.
  induction 1 as [w|t R (tl & L & E)|t b t' R (tl & L & E) (_ & f & C)|p t v t' R (tl & L & E) (_ & f & C)].
  - exists (init_thread (w, [])). split; [constructor|reflexivity].
  - exists (start_thread N tl). split; [constructor; auto|]. unfold start_thread. rewrite <- E, <- alloc_globals_er. reflexivity.
  - unfold execute_cycle in C. rewrite <- E, <- (cycle_er (call_function N poll f)) in C by (intros; apply call_er).
    destruct (cycle N _ poll tl) as [[b1 t1]| | |] eqn:C1; inversion C; subst.
    exists t1. split; [|reflexivity]. eapply lives_cycle; [exact L|]. split; [discriminate|]. exists f. exact C1.
  - rewrite <- E, <- (fprog_er (call_function N poll f)) in C by (intros; apply call_er).
    destruct (run_fprog N _ (lift p) tl) as [[v1 t1]| | |] eqn:C1; inversion C; subst.
    exists t1. split; [|reflexivity]. eapply lives_host; [exact L|]. split; [discriminate|]. exists f. exact C1.
Qed.
End E.
