(** * Fuel independence and determinism of the VM model *)
From Verif Require Import Base Values Code Heap VM.
Local Open Scope nat_scope.

(** [a] is [b], unless [a] ran out of fuel. *)
Definition ole {A} (a b : outcome A) : Prop := a = Fuel \/ a = b.

Lemma ole_refl {A} (a : outcome A) : ole a a. Proof. right; reflexivity. Qed.
Lemma ole_fuel {A} (a : outcome A) : ole Fuel a. Proof. left; reflexivity. Qed.
#[export] Hint Resolve ole_refl ole_fuel : core.

Lemma ole_trans {A} (a b c : outcome A) : ole a b -> ole b c -> ole a c.
Proof. unfold ole. intuition congruence. Qed.

Lemma ole_bind {A B} (a a' : outcome A) (k k' : A -> outcome B) :
  ole a a' -> (forall x, ole (k x) (k' x)) -> ole (obind a k) (obind a' k').
Proof. intros [->| ->] Hk; [left; reflexivity|]. destruct a'; simpl; auto. Qed.

Lemma ole_ok {A} (a b : outcome A) r : ole a b -> a = r -> r <> Fuel -> b = r.
Proof. intros [E|E]; congruence. Qed.

Section Mono.
Context {H : Type} (M : machine H) (poll : nat -> nat -> bool).
Notation callty := (thread H -> Z -> list value -> outcome (value * thread H)).

Definition cle (c c' : callty) : Prop := forall t f a, ole (c t f a) (c' t f a).

Lemma run_fprog_mono c c' : cle c c' -> forall p t, ole (run_fprog M c p t) (run_fprog M c' p t).
Proof.
  intros C. induction p; intros t; simpl; auto.
  - destruct (ref_of v); auto. destruct (hget _ _); auto.
  - destruct (0 <=? t_pc t)%Z; simpl; auto.
  - destruct (get_global M t i); auto.
  - destruct (set_global M t i v); auto.
  - destruct (C t f args) as [E|E]; rewrite E; auto.
    destruct (c' t f args) as [[]| | |]; auto.
Qed.

Lemma exec_mono c c' i t : cle c c' -> ole (exec M c i t) (exec M c' i t).
Proof.
  intros C. destruct i; simpl; auto.
  destruct (_ <=? _); auto. destruct (nth_error _ _); auto.
  apply ole_bind; [apply run_fprog_mono; assumption|auto].
Qed.

Lemma cycle_mono c c' t : cle c c' -> ole (cycle M c poll t) (cycle M c' poll t).
Proof.
  intros C. unfold cycle. destruct (_ <? _)%Z; auto.
  apply ole_bind; auto. intros [i next]. apply ole_bind; auto. apply exec_mono; assumption.
Qed.

Lemma loop_S fuel floor t :
  loop M poll (S fuel) floor t =
  if match floor with Some fc => fc <? length (t_frames t) | None => true end
  then obind (cycle M (call_function M poll fuel) poll t)
         (fun r => let (b, t') := r in if b then loop M poll fuel floor t' else Ok t')
  else Ok t.
Proof. reflexivity. Qed.

Lemma loop_mono : forall fuel fuel' floor t, fuel <= fuel' ->
  ole (loop M poll fuel floor t) (loop M poll fuel' floor t).
Proof.
  induction fuel as [|f IH]; intros fuel' floor t L.
  - destruct fuel' as [|f']; [auto|]. rewrite loop_S. simpl. destruct floor as [fc|].
    + destruct (fc <? _); auto.
    + auto.
  - destruct fuel' as [|f']; [lia|]. rewrite !loop_S.
    destruct (match floor with Some fc => fc <? length (t_frames t) | None => true end); auto.
    apply ole_bind.
    + apply cycle_mono. intros t0 fn args. unfold call_function.
      apply ole_bind; auto. intros t1. apply ole_bind; auto. apply IH. lia.
    + intros [b t']. destruct b; auto. apply IH. lia.
Qed.

Lemma call_function_mono f f' : f <= f' -> cle (call_function M poll f) (call_function M poll f').
Proof.
  intros L t fn args. unfold call_function. apply ole_bind; auto. intros t1.
  apply ole_bind; auto. apply loop_mono; assumption.
Qed.

Lemma execute_cycle_mono f f' t : f <= f' ->
  ole (execute_cycle M poll f t) (execute_cycle M poll f' t).
Proof. intros. apply cycle_mono. apply call_function_mono. assumption. Qed.

End Mono.
