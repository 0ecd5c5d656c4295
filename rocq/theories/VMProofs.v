From Verif Require Import Base Float64 Values Code CodeSpec CodeProofs Heap GCSpec VM VMBasics VMSpec VMInv VMFrame Disasm.
Local Open Scope nat_scope.

Section P.
Context {H : Type} (M : machine H) (poll : nat -> nat -> bool).

(** ** Runs are iterated cycles *)
Lemma cycles_det t r r' : cycles M poll t r -> cycles M poll t r' -> r = r'.
Proof.
  intros (N & f & E) (N' & f' & E').
  pose proof (execute_cycle_mono M poll f (Nat.max f f') t ltac:(lia)) as A.
  pose proof (execute_cycle_mono M poll f' (Nat.max f f') t ltac:(lia)) as B.
  pose proof (ole_ok _ _ _ A E N). pose proof (ole_ok _ _ _ B E' N'). congruence.
Qed.

Lemma calls_det t f a r r' : calls M poll t f a r -> calls M poll t f a r' -> r = r'.
Proof.
  intros (N & n & E) (N' & n' & E').
  pose proof (call_function_mono M poll n (Nat.max n n') ltac:(lia) t f a) as A.
  pose proof (call_function_mono M poll n' (Nat.max n n') ltac:(lia) t f a) as B.
  pose proof (ole_ok _ _ _ A E N). pose proof (ole_ok _ _ _ B E' N'). congruence.
Qed.

Lemma run_S fuel t : run M poll (S fuel) t =
  obind (execute_cycle M poll fuel t)
    (fun r => let (b, t') := r in if b then run M poll fuel t' else Ok t').
Proof. reflexivity. Qed.

Lemma runs_iterates t r : runs M poll t r <-> iterates M poll t r.
Proof.
  split.
  - intros (N & fuel & E). revert t E. induction fuel as [|f IH]; intros t E.
    + cbn in E. congruence.
    + rewrite run_S in E. destruct (execute_cycle M poll f t) as [[b t']| | |] eqn:C; cbn [obind] in E.
      * assert (CC : cycles M poll t (Ok (b, t'))) by (split; [discriminate|eauto]).
        destruct b; [eapply it_go; eauto|]. subst r. apply it_stop; auto.
      * subst. apply it_abort. split; [discriminate|eauto].
      * subst. apply it_ub. split; [discriminate|eauto].
      * congruence.
  - intros I. induction I as [t t' C|t t' r C I IH|t C|t C].
    + destruct C as (N & f & E). split; [discriminate|]. exists (S f). rewrite run_S, E. reflexivity.
    + destruct C as (N & f & E). destruct IH as (N' & f' & E'). split; [auto|].
      exists (S (Nat.max f f')). rewrite run_S.
      rewrite (ole_ok _ _ _ (execute_cycle_mono M poll f (Nat.max f f') t ltac:(lia)) E) by discriminate.
      cbn. eapply ole_ok; [|exact E'|auto]. apply loop_mono. lia.
    + destruct C as (N & f & E). split; [discriminate|]. exists (S f). rewrite run_S, E. reflexivity.
    + destruct C as (N & f & E). split; [discriminate|]. exists (S f). rewrite run_S, E. reflexivity.
Qed.

Lemma runs_det t r r' : runs M poll t r -> runs M poll t r' -> r = r'.
Proof.
  intros (N & n & E) (N' & n' & E').
  pose proof (loop_mono M poll n (Nat.max n n') None t ltac:(lia)) as A.
  pose proof (loop_mono M poll n' (Nat.max n n') None t ltac:(lia)) as B.
  pose proof (ole_ok _ _ _ A E N). pose proof (ole_ok _ _ _ B E' N'). congruence.
Qed.

Lemma halted_stays t : (t_pc t < 0)%Z ->
  cycles M poll t (Ok (false, t)) /\ runs M poll t (Ok t).
Proof.
  intros P. assert (C : cycles M poll t (Ok (false, t))).
  { split; [discriminate|]. exists 0. unfold execute_cycle, cycle.
    apply Z.ltb_lt in P. rewrite P. reflexivity. }
  split; auto. apply runs_iterates. apply it_stop; auto.
Qed.

Lemma halt_halts t next b t' : at_instr M t IHalt next -> cycles M poll t (Ok (b, t')) ->
  (t_pc t' < 0)%Z.
Proof.
  intros A C. destruct (cycles_inv _ _ _ _ _ _ _ A C) as (_ & f & t1 & E & G).
  cbn in E. inversion E; subst. destruct (poll _ _).
  - apply gc_frame in G. destruct G as (G & _). rewrite G. cbn. lia.
  - subst. cbn. lia.
Qed.

(** A false result means the thread had already halted; nothing changes. *)
Lemma cycle_false t t' : cycles M poll t (Ok (false, t')) -> (t_pc t < 0)%Z /\ t' = t.
Proof.
  intros (_ & f & E). unfold execute_cycle, cycle in E.
  destruct (t_pc t <? 0)%Z eqn:L; [apply Z.ltb_lt in L; inversion E; subst; auto|].
  obinv E. destruct r as [i nx]. obinv E. obinv E. discriminate.
Qed.

(** ** Stack effects *)
Lemma bin_stack t o next a b s b' t' :
  at_instr M t (IBin o) next -> t_stk t = b :: a :: s -> cycles M poll t (Ok (b', t')) ->
  exists v, do_bin o a b = Ok v /\ t_stk t' = v :: s /\ t_pc t' = next.
Proof.
  intros A S C. destruct (straight_pc _ _ _ _ _ _ _ A eq_refl C) as (Pc & _).
  destruct (cycles_inv _ _ _ _ _ _ _ A C) as (_ & f & t1 & E & G).
  cbn [exec with_pc t_stk] in E. rewrite S in E. obinv E. inversion E; subst. exists r.
  split; [auto|]. split; [|auto]. destruct (poll _ _).
  - apply gc_frame in G. destruct G as (_ & _ & G & _). rewrite G. reflexivity.
  - rewrite G. reflexivity.
Qed.

(** ** Calls *)
Definition fps (t : thread H) : list nat := t_fp t :: map f_fp (t_frames t).

Lemma fps_length t : length (fps t) = S (length (t_frames t)).
Proof. unfold fps. simpl. rewrite map_length. reflexivity. Qed.

Lemma exec_fps callf (CC : forall t f a v t', callf t f a = Ok (v, t') -> ctl_same t t') i t t' n :
  exec M callf i t = Ok t' -> n < length (fps t) -> n <= length (t_frames t) ->
  bottom n (fps t') = bottom n (fps t).
Proof.
  intros E L L2. destruct (straight i) eqn:S.
  - destruct (exec_straight M _ CC _ _ _ S E) as (_ & F1 & F2). unfold fps. rewrite F1, F2. reflexivity.
  - assert (PI : forall u u' : thread H, pop_indir u = Ok u' -> t_frames u = t_frames t -> t_fp u = t_fp t ->
               bottom n (fps u') = bottom n (fps t)).
    { intros u u' P F F'. unfold pop_indir in P. unfold fps. rewrite F in P. rewrite F' in P.
      destruct (t_frames t) as [|f fr] eqn:Ft; [discriminate|]. destruct (_ <=? _); [|discriminate].
      destruct (cut _ _); try discriminate. destruct (cut _ _); try discriminate.
      inversion P; subst. cbn [t_fp t_frames with_ctl map]. symmetry.
      apply bottom_cons. simpl in *. rewrite map_length. lia. }
    destruct i; try discriminate S; cbn [exec] in E.
    + inversion E; subst. reflexivity.
    + obinv E. destruct r as [v t1]. obinv E. apply pop_ctl in Em. destruct Em as (_ & F & F' & _).
      inversion E; subst. unfold fps. destruct r; cbn [t_fp t_frames with_pc]; rewrite F, F'; auto.
    + obinv E. unfold push_indir, oassert in Em. destruct (_ <? _); [|discriminate].
      inversion Em; subst. destruct (nth_error _ _); inversion E; subst.
      unfold fps at 1; cbn [t_fp t_frames with_ctl with_pc map]. change (t_fp t :: map f_fp (t_frames t)) with (fps t).
      apply bottom_cons. rewrite fps_length. lia.
    + eapply PI; eauto.
    + obinv E. destruct r as [v t1]. apply pop_ctl in Em. destruct Em as (_ & F & F' & _).
      eapply PI; [exact E| |]; auto.
    + inversion E; subst. reflexivity.
Qed.

Lemma cycles_fps t b t' n : cycles M poll t (Ok (b, t')) -> n < length (t_frames t) ->
  fkeep n t t' /\ bottom (S n) (fps t') = bottom (S n) (fps t).
Proof.
  intros (_ & f & E) L. split.
  { eapply cycle_frames; [|exact E|auto]. intros; eapply call_ctl; eauto. }
  unfold execute_cycle, cycle in E. destruct (_ <? _)%Z. { inversion E; subst; auto. }
  obinv E. destruct r as [i nx]. obinv E. obinv E. inversion E; subst.
  assert (X : bottom (S n) (fps r) = bottom (S n) (fps t)).
  { change (fps t) with (fps (with_pc t nx)).
    eapply exec_fps; [|exact Em0| |]. - intros; eapply call_ctl; eauto.
    - rewrite fps_length. cbn. lia. - cbn. lia. }
  destruct (poll _ _).
  - apply gc_frame in Em1. destruct Em1 as (_ & F1 & _ & F2 & _). rewrite <- X.
    unfold fps. rewrite F1, F2. reflexivity.
  - inversion Em1; subst. exact X.
Qed.

Lemma inside_snoc d t t' : inside M poll d t t' -> length (t_frames t') = d -> d < length (t_frames t) ->
  exists u, inside M poll d t u /\ d < length (t_frames u) /\ cycles M poll u (Ok (true, t')).
Proof.
  intros I. induction I as [t|t t1 t' L C I IH]; intros E1 L1; [lia|].
  destruct (Nat.lt_ge_cases d (length (t_frames t1))) as [G|G].
  - destruct (IH E1 G) as (u & Iu & Lu & Cu). exists u. split; [eapply inside_step; eauto|auto].
  - inversion I; subst; [|lia]. exists t. split; [constructor|auto].
Qed.

Lemma inside_keep d t t' : inside M poll d t t' -> d < length (t_frames t') -> d < length (t_frames t) ->
  bottom (S d) (t_frames t') = bottom (S d) (t_frames t) /\
  bottom (S (S d)) (fps t') = bottom (S (S d)) (fps t).
Proof.
  intros I. induction I as [t|t t1 t' L C I IH]; intros L1 L2; [auto|].
  assert (G : d < length (t_frames t1)).
  { inversion I; subst; auto. }
  destruct (IH L1 G) as [A B]. rewrite A, B.
  (* one cycle that stays above depth d keeps frame d+1 *)
  clear IH I A B.
  destruct C as (_ & f & E).
  unfold execute_cycle, cycle in E. destruct (_ <? _)%Z. { inversion E. }
  obinv E. destruct r as [i nx]. obinv E. obinv E. inversion E; subst.
  assert (Fr : t_frames t1 = t_frames r /\ t_fp t1 = t_fp r).
  { destruct (poll _ _); [apply gc_frame in Em1; tauto|]. inversion Em1; subst; auto. }
  destruct Fr as [Fr1 Fr2]. unfold fps. rewrite Fr1, Fr2 in *. clear Em1 E.
  assert (CC : forall t f' a v t', call_function M poll f t f' a = Ok (v, t') -> ctl_same t t')
    by (intros; eapply call_ctl; eauto).
  destruct (Nat.eq_dec (length (t_frames t)) (S d)) as [Ed|Ed].
  - (* depth exactly d+1: only non-popping instructions *)
    destruct (straight i) eqn:S.
    { destruct (exec_straight M _ CC _ _ _ S Em0) as (_ & F1 & F2). rewrite F1, F2. auto. }
    assert (NP : forall u u' : thread H, pop_indir u = Ok u' -> t_frames u = t_frames t -> d < length (t_frames u') -> False).
    { intros u u' P F LL. unfold pop_indir in P. rewrite F in P.
      destruct (t_frames t) as [|fr frs]; [discriminate|]. destruct (_ <=? _); [|discriminate].
      destruct (cut _ _); try discriminate. destruct (cut _ _); try discriminate.
      inversion P; subst. cbn in LL, Ed. lia. }
    destruct i; try discriminate S; cbn [exec] in Em0.
    + inversion Em0; subst. auto.
    + obinv Em0. destruct r0 as [v t2]. obinv Em0. apply pop_ctl in Em1. destruct Em1 as (_ & F & F' & _).
      inversion Em0; subst. destruct r0; cbn [t_fp t_frames with_pc] in *; rewrite F, F'; auto.
    + obinv Em0. unfold push_indir, oassert in Em1. destruct (_ <? _); [|discriminate].
      inversion Em1; subst. destruct (nth_error _ _); inversion Em0; subst.
      cbn [t_fp t_frames with_ctl with_pc map]. split.
      * rewrite bottom_cons by lia. reflexivity.
      * rewrite bottom_cons; [reflexivity|]. simpl. rewrite map_length. lia.
    + exfalso. eapply NP; eauto.
    + obinv Em0. destruct r0 as [v t2]. apply pop_ctl in Em1. destruct Em1 as (_ & F & F' & _).
      exfalso. eapply NP; [exact Em0| |]; auto.
    + inversion Em0; subst. auto.
  - split.
    + eapply (exec_frames M _ CC _ (with_pc t nx) r (S d) Em0). cbn. lia.
    + change (t_fp r :: map f_fp (t_frames r)) with (fps r).
      change (t_fp t :: map f_fp (t_frames t)) with (fps (with_pc t nx)).
      eapply exec_fps; eauto. * rewrite fps_length. cbn. lia. * cbn. lia.
Qed.

(** From a call instruction to the matching return. *)
Lemma call_return t n f next b t1 t' :
  at_instr M t (ICall n f) next -> cycles M poll t (Ok (b, t1)) ->
  inside M poll (length (t_frames t)) t1 t' -> length (t_frames t') = length (t_frames t) ->
  t_pc t' = next /\ t_fp t' = t_fp t /\ t_frames t' = t_frames t /\
  Z.of_nat (length (t_stk t')) = (Z.of_nat (length (t_stk t)) - Z.of_nat (Z.to_nat n))%Z.
Proof.
  intros A C I L. destruct (cycles_inv _ _ _ _ _ _ _ A C) as (_ & fuel & t2 & E & G).
  cbn [exec] in E. obinv E. unfold push_indir, oassert in Em. destruct (_ <? _); [|discriminate].
  inversion Em; subst r. clear Em. destruct (nth_error _ _) as [pc|]; [|discriminate].
  inversion E; subst t2. clear E.
  assert (F : t_frames t1 = mkFrame next (t_fp t) (Z.to_nat n) :: t_frames t /\ t_fp t1 = length (t_stk t)).
  { destruct (poll _ _); [apply gc_frame in G; destruct G as (_ & G2 & _ & G & _); rewrite G, G2; auto|].
    subst; auto. }
  clear G. destruct F as [F1 F2].
  destruct (inside_snoc _ _ _ I L) as (u & Iu & Lu & Cu). { rewrite F1. simpl. lia. }
  destruct (inside_keep _ _ _ Iu Lu) as [K1 K2]. { rewrite F1. simpl. lia. }
  replace (S (length (t_frames t))) with (length (t_frames t1)) in K1 by (rewrite F1; reflexivity).
  rewrite bottom_all in K1.
  replace (S (S (length (t_frames t)))) with (length (fps t1)) in K2
    by (rewrite fps_length, F1; reflexivity).
  rewrite bottom_all in K2.
  (* the cycle from u must be a return *)
  destruct Cu as (_ & fu & E). unfold execute_cycle, cycle in E.
  destruct (_ <? _)%Z. { inversion E. }
  obinv E. destruct r as [i nx]. obinv E. obinv E. inversion E; subst r0. clear E.
  assert (Fr : t_pc t' = t_pc r /\ t_frames t' = t_frames r /\ t_fp t' = t_fp r /\ t_stk t' = t_stk r).
  { destruct (poll _ _); [apply gc_frame in Em1; tauto|]. inversion Em1; subst; auto. }
  destruct Fr as (R1 & R2 & R3 & R4). rewrite R1, R2, R3, R4. rewrite R2 in L. clear Em1 R1 R2 R3 R4.
  assert (CC : forall t f' a v t', call_function M poll fu t f' a = Ok (v, t') -> ctl_same t t')
    by (intros; eapply call_ctl; eauto).
  assert (PI : forall u0 u' : thread H, pop_indir u0 = Ok u' -> t_frames u0 = t_frames u -> t_fp u0 = t_fp u ->
     length (t_frames u') = length (t_frames t) ->
     t_pc u' = next /\ t_fp u' = t_fp t /\ t_frames u' = t_frames t /\
     Z.of_nat (length (t_stk u')) = (Z.of_nat (length (t_stk t)) - Z.of_nat (Z.to_nat n))%Z).
  { intros u0 u' P Fu0 Fp0 LL. unfold pop_indir in P. rewrite Fu0, Fp0 in P.
    destruct (t_frames u) as [|fr frs] eqn:Fu; [discriminate|].
    destruct (f_nargs fr <=? t_fp u) eqn:Ln; [|discriminate].
    destruct (cut (t_stk u0) (t_fp u)) eqn:C1; try discriminate.
    destruct (cut (t_stk u0) (t_fp u - f_nargs fr)) eqn:C2; try discriminate.
    inversion P; subst u'. clear P. cbn [t_frames with_ctl] in LL.
    assert (EB : bottom (length (t_frames t1)) (fr :: frs) = fr :: frs).
    { rewrite F1. simpl length. replace (S (length (t_frames t))) with (length (fr :: frs)) by (simpl; lia).
      apply bottom_all. }
    rewrite EB, F1 in K1. inversion K1; subst fr frs.
    assert (EB2 : t_fp u = length (t_stk t)).
    { replace (length (fps t1)) with (length (fps u)) in K2
        by (rewrite !fps_length, Fu, F1; reflexivity).
      rewrite bottom_all in K2. unfold fps in K2. injection K2. intros _ Efp. congruence. }
    cbn in C2, Ln |- *. apply cut_length in C2. apply Nat.leb_le in Ln. repeat split; auto. lia. }
  destruct (straight i) eqn:S.
  { destruct (exec_straight M _ CC _ _ _ S Em0) as (_ & _ & F3). rewrite F3 in L. cbn in L. lia. }
  destruct i; try discriminate S; cbn [exec] in Em0.
  - inversion Em0; subst. cbn in L. lia.
  - obinv Em0. destruct r0 as [v t2]. obinv Em0. apply pop_ctl in Em1. destruct Em1 as (_ & F & F' & _).
    inversion Em0; subst. exfalso. destruct r0; cbn in L; rewrite F in L; cbn in L; lia.
  - obinv Em0. unfold push_indir, oassert in Em1. destruct (_ <? _); [|discriminate].
    inversion Em1; subst. destruct (nth_error _ _); inversion Em0; subst. cbn in L. lia.
  - eapply PI; [exact Em0| | |]; auto.
  - obinv Em0. destruct r0 as [v t2]. apply pop_ctl in Em1. destruct Em1 as (_ & F & F' & _).
    eapply PI; [exact Em0| | |]; auto.
  - inversion Em0; subst. cbn in L. lia.
Qed.
End P.
