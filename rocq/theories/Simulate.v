(** * Machine runs that follow a computation of Source.v

    [sim n d t r Q]: the outcome [r] of the source agrees with what the machine
    does from [t], never going below [d] active calls before the end:
    a result leads to a thread satisfying [Q], an abort to an abort, and [r =
    Fuel] (the source needs more than [n] steps) means that the machine takes
    more than [n] steps too.  [UB] promises nothing. *)
From Verif Require Import Base Values Heap Code VM VMBasics VMSpec VMInv VMFrame VMProofs.
Local Open Scope nat_scope.

Section Sim.
Context {H : Type} (M : machine H).
Notation cyc := (cycles M no_poll).
Notation lp := (loop M no_poll).

Inductive star (d : nat) : thread H -> thread H -> Prop :=
| star_refl t : star d t t
| star_step t t1 t' : d <= length (t_frames t) -> cyc t (Ok (true, t1)) -> star d t1 t' -> star d t t'.

Lemma star_trans d a b c : star d a b -> star d b c -> star d a c.
Proof. intros S. induction S; auto. intros. eapply star_step; eauto. Qed.

Lemma star_one d t t1 : d <= length (t_frames t) -> cyc t (Ok (true, t1)) -> star d t t1.
Proof. intros. eapply star_step; eauto. constructor. Qed.

Lemma star_weaken d d' a b : star d a b -> d' <= d -> star d' a b.
Proof. intros S L. induction S; [constructor|]. eapply star_step; eauto. lia. Qed.

Definition below (d : nat) (floor : option nat) : Prop :=
  match floor with None => True | Some fc => fc < d end.

Definition going (floor : option nat) (t : thread H) : bool :=
  match floor with Some fc => fc <? length (t_frames t) | None => true end.

Lemma going_true d floor t : below d floor -> d <= length (t_frames t) -> going floor t = true.
Proof. destruct floor; cbn; auto. intros. apply Nat.ltb_lt. lia. Qed.

Lemma loop_step f floor t : lp (S f) floor t =
  if going floor t then
    obind (execute_cycle M no_poll f t)
      (fun r => let (b, t') := r in if b then lp f floor t' else Ok t')
  else Ok t.
Proof. reflexivity. Qed.

Lemma step_lift d floor t t1 f r : below d floor -> d <= length (t_frames t) -> cyc t (Ok (true, t1)) ->
  lp f floor t1 = r -> r <> Fuel -> exists f', lp f' floor t = r.
Proof.
  intros B L (_ & f0 & C) E N. exists (S (Nat.max f0 f)). rewrite loop_step, (going_true d); auto.
  rewrite (ole_ok _ _ _ (execute_cycle_mono M no_poll f0 (Nat.max f0 f) t ltac:(lia)) C) by discriminate.
  cbn [obind]. eapply ole_ok; [|exact E|auto]. apply loop_mono. lia.
Qed.

Lemma star_lift d floor t t' f r : star d t t' -> below d floor ->
  lp f floor t' = r -> r <> Fuel -> exists f', lp f' floor t = r.
Proof.
  intros S. revert f. induction S; intros f B E N; [eauto|].
  destruct (IHS f B E N) as (f1 & E1). eapply step_lift; eauto.
Qed.

(** Steps do not create an end *)
Lemma step_fuel d floor t t1 n : below d floor -> d <= length (t_frames t) -> cyc t (Ok (true, t1)) ->
  lp n floor t1 = Fuel -> lp (S n) floor t = Fuel.
Proof.
  intros B L C E. rewrite loop_step, (going_true d); auto.
  destruct (execute_cycle M no_poll n t) as [[b x]| | |] eqn:X; cbn [obind]; auto.
  - assert (A : Ok (b, x) = Ok (true, t1)). { eapply cycles_det; [|exact C]. split; [discriminate|eauto]. }
    injection A as -> ->. exact E.
  - assert (A : @Abort (bool * thread H) = Ok (true, t1)). { eapply cycles_det; [|exact C]. split; [discriminate|eauto]. }
    discriminate.
  - assert (A : @UB (bool * thread H) = Ok (true, t1)). { eapply cycles_det; [|exact C]. split; [discriminate|eauto]. }
    discriminate.
Qed.

Lemma fuel_le floor t n n' : lp n floor t = Fuel -> n' <= n -> lp n' floor t = Fuel.
Proof.
  intros E L. destruct (loop_mono M no_poll n' n floor t L) as [A|A]; congruence.
Qed.

Lemma star_fuel d floor t t' n : star d t t' -> below d floor -> lp n floor t' = Fuel -> lp n floor t = Fuel.
Proof.
  intros S B E. induction S; auto. eapply fuel_le; [eapply step_fuel; eauto|lia].
Qed.

Lemma loop0 d floor t : below d floor -> d <= length (t_frames t) -> lp 0 floor t = Fuel.
Proof. intros B L. cbn [loop]. pose proof (going_true d floor t B L) as G. unfold going in G. rewrite G. reflexivity. Qed.

Definition sim {A} (n d : nat) (t : thread H) (r : outcome A) (Q : A -> thread H -> Prop) : Prop :=
  match r with
  | Ok a => exists t', star d t t' /\ Q a t'
  | Abort => exists t', star d t t' /\ d <= length (t_frames t') /\ cyc t' Abort
  | UB => True
  | Fuel => forall floor, below d floor -> lp n floor t = Fuel
  end.

Lemma sim_star {A} n d t t1 (r : outcome A) Q : star d t t1 -> sim n d t1 r Q -> sim n d t r Q.
Proof.
  intros S. destruct r; cbn; auto.
  - intros (t' & S' & X). exists t'. split; auto. eapply star_trans; eauto.
  - intros (t' & S' & X). exists t'. split; auto. eapply star_trans; eauto.
  - intros X floor B. eapply star_fuel; eauto.
Qed.

Lemma sim_bind {A B} n d t (r : outcome A) (k : A -> outcome B) Q Q' :
  sim n d t r Q -> (forall a t', Q a t' -> sim n d t' (k a) Q') -> sim n d t (obind r k) Q'.
Proof.
  destruct r; cbn [obind]; auto. intros (t' & S & X) K. eapply sim_star; eauto.
Qed.

Lemma sim_ok {A} n d t (a : A) (Q : A -> thread H -> Prop) : Q a t -> sim n d t (Ok a) Q.
Proof. intros. exists t. split; [constructor|auto]. Qed.

Lemma sim_mono {A} n d t (r : outcome A) (Q Q' : A -> thread H -> Prop) :
  sim n d t r Q -> (forall a t', Q a t' -> Q' a t') -> sim n d t r Q'.
Proof. destruct r; cbn; auto. intros (t' & S & X) I. eauto. Qed.

Lemma sim_fuel {A} n n' d t (r : outcome A) Q : sim n d t r Q -> n' <= n -> sim n' d t r Q.
Proof. destruct r; cbn; auto. intros X L floor B. eapply fuel_le; eauto. Qed.

(** A first step pays for one unit of fuel *)
Lemma sim_step {A} n d t t1 (r : outcome A) Q : d <= length (t_frames t) -> cyc t (Ok (true, t1)) ->
  sim n d t1 r Q -> sim (S n) d t r Q.
Proof.
  intros L C. destruct r; cbn; auto.
  - intros (t' & S & X). exists t'. split; auto. eapply star_step; eauto.
  - intros (t' & S & X). exists t'. split; auto. eapply star_step; eauto.
  - intros X floor B. eapply step_fuel; eauto.
Qed.

Lemma sim_step' {A} n d t t1 (r : outcome A) Q : d <= length (t_frames t) -> cyc t (Ok (true, t1)) ->
  sim n d t1 r Q -> sim n d t r Q.
Proof. intros. eapply sim_fuel; [eapply sim_step; eauto|lia]. Qed.

(** ** One instruction *)
Lemma cyc_instr t i next t1 : (0 <= t_pc t)%Z -> decode (m_code M) (t_pc t) = Ok (i, next) ->
  (exists f, exec M (call_function M no_poll f) i (with_pc t next) = Ok t1) -> cyc t (Ok (true, t1)).
Proof.
  intros P D (f & E). split; [discriminate|]. exists f. unfold execute_cycle, cycle.
  apply Z.ltb_ge in P. rewrite P, D. cbn [obind]. rewrite E. reflexivity.
Qed.

Lemma cyc_abort t i next : (0 <= t_pc t)%Z -> decode (m_code M) (t_pc t) = Ok (i, next) ->
  (exists f, exec M (call_function M no_poll f) i (with_pc t next) = Abort) -> cyc t Abort.
Proof.
  intros P D (f & E). split; [discriminate|]. exists f. unfold execute_cycle, cycle.
  apply Z.ltb_ge in P. rewrite P, D. cbn [obind]. rewrite E. reflexivity.
Qed.

(** The general form: [n] matters for calls back only *)
Lemma sim_instr {A} n d t i next (r : outcome A) (Q : A -> thread H -> Prop) :
  d <= length (t_frames t) -> (0 <= t_pc t)%Z -> decode (m_code M) (t_pc t) = Ok (i, next) ->
  match r with
  | Ok a => exists f t1, exec M (call_function M no_poll f) i (with_pc t next) = Ok t1 /\ Q a t1
  | Abort => exists f, exec M (call_function M no_poll f) i (with_pc t next) = Abort
  | UB => True
  | Fuel => forall f, f < n -> exec M (call_function M no_poll f) i (with_pc t next) = Fuel
  end -> sim n d t r Q.
Proof.
  intros L P D. destruct r; cbn; auto.
  - intros (f & t1 & E & X). exists t1. split; auto. apply star_one; auto. eapply cyc_instr; eauto.
  - intros E. exists t. split; [constructor|]. split; auto. eapply cyc_abort; eauto.
  - intros E floor B. destruct n as [|m]; [eapply loop0; eauto|]. rewrite loop_step, (going_true d); auto.
    unfold execute_cycle, cycle. apply Z.ltb_ge in P. rewrite P, D. cbn [obind]. rewrite E by lia. reflexivity.
Qed.
End Sim.
