(** C37: the life of native objects *)
From Verif Require Import Base Values Code Heap GCSpec VM VMSpec LifeSpec LifeProofs LifeErase.
Local Open Scope Z_scope.

(** At any moment of any history: every native object with a finalizer that was
    ever made is either still in the heap or was finalized, once.  Destroying
    the thread finalizes the rest. *)
Theorem natives_finalized_once : forall {H} (M : machine H) poll t, lives M poll t ->
  forall a p, p <> 0%nat ->
  born a p (snd (t_host t)) = (died a p (snd (t_host t)) + alive a p (t_heap t))%nat /\
  born a p (snd (destroy_thread (logged M) t)) = born a p (snd (t_host t)) /\
  died a p (snd (destroy_thread (logged M) t)) = born a p (snd (t_host t)).
Proof.
  intros H M poll t L a p Hp. pose proof (lives_LT M poll t L) as T. split; [apply T; auto|].
  pose proof (destroy_log M t T a p Hp) as D.
  assert (B : born a p (snd (destroy_thread (logged M) t)) = born a p (snd (t_host t))).
  { exact (proj1 (finalize_log (m_natives M) (t_heap t) (t_host t) a p Hp)). }
  split; [exact B|]. rewrite <- D. exact B.
Qed.
Print Assumptions natives_finalized_once.

(** The log is an observer only: every history of the machine itself is one of
    the logged machine with the log forgotten. *)
Theorem log_only_observes : forall {H} (M : machine H) poll t, reached M poll t ->
  exists tl, lives M poll tl /\ erase tl = t.
Proof. intros H M poll. exact (reached_lives M poll). Qed.
Print Assumptions log_only_observes.

(** make(); make(); ... ten times; the results are dropped.  The eighth object
    triggers a collection. *)
Definition maker : machine unit :=
  mkMachine unit (fold_left gen_instr (repeat (ICallF 0 0) 10 ++ [IHalt]) []) [] []
    [fun _ => FNewNative 7 3 (fun v => FRet v)] 0
    (mkNatives unit (fun _ _ _ => []) (fun _ w _ => w)) (Some stack_size) call_depth.
Definition made : thread (unit * log) := Eval vm_compute in
  match run (logged maker) real_poll 20 (start_thread (logged maker) (init_thread (tt, []))) with
  | Ok t => t | _ => init_thread (tt, []) end.
Lemma iterates_lives {H} (M : machine H) poll : forall f t t', lives M poll t ->
  loop (logged M) poll f None t = Ok t' -> lives M poll t'.
Proof.
  induction f as [|f IH]; intros t t' L E; [discriminate|].
  rewrite VMBasics.loop_S in E.
  destruct (cycle (logged M) (call_function (logged M) poll f) poll t) as [[b t1]| | |] eqn:C; try discriminate E.
  cbn [obind] in E. assert (L1 : lives M poll t1).
  { eapply lives_cycle; [exact L|]. split; [discriminate|]. exists f. exact C. }
  destruct b; [eauto|]. inversion E; subst; auto.
Qed.
Example made_case : lives maker real_poll made /\
  born 7 3 (snd (t_host made)) = 10%nat /\ died 7 3 (snd (t_host made)) = 9%nat /\
  alive 7 3 (t_heap made) = 1%nat /\ died 7 3 (snd (destroy_thread (logged maker) made)) = 10%nat.
Proof.
  split.
  - refine (iterates_lives maker real_poll 20 _ made (lives_start _ _ _ (lives_init _ _ tt)) _). vm_compute. reflexivity.
  - vm_compute. auto.
Qed.
