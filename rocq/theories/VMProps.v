From Verif Require Import Base Float64 Values Code CodeSpec CodeProofs Heap GCSpec GCProofs VM VMBasics VMSpec
  VMInv VMFrame VMProofs Disasm.
Local Open Scope nat_scope.

Section P.
Context {H : Type} (M : machine H) (poll : nat -> nat -> bool).

(** ** Integers *)
Lemma do_bin_ints o a b v : do_bin o (VInt a) (VInt b) = Ok v ->
  (is_wide o = true -> v = VInt (int_meaning o a b)) /\
  (is_narrow o = true -> v = VInt (wrap32 (int_meaning o a b))) /\
  (forall P, int_compare o a b = Some P -> exists r, v = VBool r /\ (r = true <-> P)).
Proof.
  intros E. destruct o; cbn in E |- *; repeat split; try discriminate; intros; try discriminate.
  - unfold int64_result in E. destruct (in_int64 _); inversion E; auto.
  - unfold int64_result in E. destruct (in_int64 _); inversion E; auto.
  - unfold int64_result in E. destruct (in_int64 _); inversion E; auto.
  - unfold c_div in E. destruct (_ || _)%bool; inversion E; auto.
  - unfold bin_op_int, c_rem in E; cbn in E. destruct (_ || _)%bool; inversion E; auto.
  - inversion E; auto.
  - inversion E; auto.
  - unfold bin_op_int, c_shl in E; cbn in E. destruct (_ || _)%bool; inversion E; auto.
  - unfold bin_op_int, c_shr in E; cbn in E.
    destruct ((b <? 0) || (63 <? b))%Z%bool eqn:B; inversion E; auto.
    rewrite Z.shiftr_div_pow2; auto. apply Bool.orb_false_iff in B. destruct B as [B _].
    apply Z.ltb_ge in B. auto.
  - inversion E; inversion H0; subst. exists (a <? b)%Z. split; auto. apply Z.ltb_lt.
  - inversion E; inversion H0; subst. exists (a <=? b)%Z. split; auto. apply Z.leb_le.
  - inversion E; inversion H0; subst. exists (a >? b)%Z. split; auto. rewrite Z.gtb_lt. lia.
  - inversion E; inversion H0; subst. exists (a >=? b)%Z. split; auto. rewrite Z.geb_le. lia.
Qed.

Lemma in_int64_iff z : in_int64 z = true <-> (- 2^63 <= z < 2^63)%Z.
Proof. unfold in_int64. rewrite Bool.andb_true_iff, Z.leb_le, Z.ltb_lt. tauto. Qed.

Lemma do_bin_defined o a b : (- 2^63 <= a < 2^63)%Z -> (- 2^63 <= b < 2^63)%Z ->
  (int_defined o a b <-> exists v, do_bin o (VInt a) (VInt b) = Ok v).
Proof.
  intros Ra Rb.
  assert (Q : b <> 0%Z -> ((- 2^63 <= Z.quot a b < 2^63)%Z <-> ((a =? - 2^63) && (b =? -1))%Z%bool = false)).
  { intros B0. rewrite Bool.andb_false_iff, !Z.eqb_neq. split.
    - intros L. destruct (Z.eq_dec a (-2^63)); [|auto]. right. intros ->. subst a.
      change (Z.quot (-2^63) (-1)) with (2^63)%Z in L. lia.
    - intros D. pose proof (Z.quot_abs a b B0) as QA. pose proof (Z.quot_le_upper_bound (Z.abs a) (Z.abs b)).
      assert (Z.abs (Z.quot a b) <= 2^63)%Z.
      { rewrite <- QA. apply Z.quot_le_upper_bound; lia. }
      assert (Z.quot a b <> 2^63)%Z; [|lia].
      intros E. assert (Z.abs (Z.quot a b) = 2^63)%Z by lia. rewrite <- QA in H2.
      assert (Z.abs b = 1)%Z.
      { destruct (Z.eq_dec (Z.abs b) 1); auto. exfalso.
        assert (Z.quot (Z.abs a) (Z.abs b) <= 2^62)%Z by (apply Z.quot_le_upper_bound; lia). lia. }
      assert (b = 1 \/ b = -1)%Z as [->| ->] by lia.
      + rewrite Z.quot_1_r in E. lia.
      + change (-1)%Z with (-(1))%Z in E. rewrite Z.quot_opp_r, Z.quot_1_r in E by lia. lia. }
  destruct o; cbn [int_defined int_meaning do_bin bin_op]; unfold int64_result, bin_op_int; cbn [raw_i].
  1-3: rewrite <- in_int64_iff; destruct (in_int64 _); split; intros X; eauto; try discriminate; destruct X; discriminate.
  - unfold c_div. destruct (Z.eqb_spec b 0) as [->|B0]; cbn [orb].
    + split; [tauto|intros [v X]; discriminate].
    + rewrite Q by auto. destruct (_ && _)%bool; split; intros X; eauto; try (destruct X; discriminate).
  - unfold c_rem. destruct (Z.eqb_spec b 0) as [->|B0]; cbn [orb].
    + split; [tauto|intros [v X]; discriminate].
    + rewrite Q by auto. destruct (_ && _)%bool; split; intros X; eauto; try (destruct X; discriminate).
  - split; eauto.
  - split; eauto.
  - unfold c_shl. destruct (Z.ltb_spec b 0); cbn [orb]; [split; [lia|intros [v X]; discriminate]|].
    destruct (Z.ltb_spec 63 b); cbn [orb]; [split; [lia|intros [v X]; discriminate]|].
    destruct (Z.ltb_spec a 0); cbn [orb]; [split; [lia|intros [v X]; discriminate]|].
    destruct (Z.leb_spec (2^63) (a * 2^b)); [split; [lia|intros [v X]; discriminate]|].
    split; [eauto|lia].
  - unfold c_shr. destruct (Z.ltb_spec b 0); cbn [orb]; [split; [lia|intros [v X]; discriminate]|].
    destruct (Z.ltb_spec 63 b); cbn [orb]; [split; [lia|intros [v X]; discriminate]|].
    split; [eauto|lia].
  - split; eauto. intros _. eexists; reflexivity.
  - split; eauto. intros _. eexists; reflexivity.
  - split; eauto. intros _. eexists; reflexivity.
  - split; eauto. intros _. eexists; reflexivity.
Qed.

Lemma bin_runs t o next a b s v :
  at_instr M t (IBin o) next -> t_stk t = b :: a :: s -> do_bin o a b = Ok v ->
  poll (t_nobj t) (t_max t) = false ->
  cycles M poll t (Ok (true, with_stk (with_pc t next) (v :: s))).
Proof.
  intros [P D] S E NP. split; [discriminate|]. exists 0. unfold execute_cycle, cycle.
  destruct (t_pc t <? 0)%Z eqn:L; [apply Z.ltb_lt in L; lia|]. rewrite D. cbn [obind exec with_pc t_stk].
  rewrite S, E. cbn. rewrite NP. reflexivity.
Qed.

Lemma int_arith_L t o next a b s b' t' :
  at_instr M t (IBin o) next -> t_stk t = VInt b :: VInt a :: s -> cycles M poll t (Ok (b', t')) ->
  exists v, t_stk t' = v :: s /\ t_pc t' = next /\
  (is_wide o = true -> v = VInt (int_meaning o a b)) /\
  (is_narrow o = true -> v = VInt (wrap32 (int_meaning o a b))) /\
  (forall P, int_compare o a b = Some P -> exists r, v = VBool r /\ (r = true <-> P)).
Proof.
  intros A S C. destruct (bin_stack _ _ _ _ _ _ _ _ _ _ A S C) as (v & E & S' & P').
  exists v. split; auto. split; auto. apply do_bin_ints; auto.
Qed.

Lemma int_defined_L t o next a b s :
  (- 2^63 <= a < 2^63)%Z -> (- 2^63 <= b < 2^63)%Z ->
  at_instr M t (IBin o) next -> t_stk t = VInt b :: VInt a :: s ->
  poll (t_nobj t) (t_max t) = false ->
  ((exists r, cycles M poll t (Ok r)) <-> int_defined o a b).
Proof.
  intros Ra Rb A S NP. rewrite (do_bin_defined o a b Ra Rb). split.
  - intros [[b' t'] C]. destruct (bin_stack _ _ _ _ _ _ _ _ _ _ A S C) as (v & E & _). eauto.
  - intros [v E]. eexists. eapply bin_runs; eauto.
Qed.

Lemma wrap32_small z : (- 2^31 <= z < 2^31)%Z -> wrap32 z = z.
Proof. intros. unfold wrap32. rewrite Z.mod_small; lia. Qed.

(** ** The collector on a thread *)
Lemma roots_in t rs : roots M t = Ok rs -> forall v, In v rs <-> In v (root_values M t).
Proof.
  unfold roots, root_values. intros E v.
  destruct (m_nglobals M) as [|n].
  - inversion E; subst. cbn [In]. rewrite <- in_rev, in_app_iff.
    destruct (t_globs t); simpl; tauto.
  - destruct (t_globs t) as [g|]; [|discriminate]. destruct (S n <=? length g) eqn:L; [|discriminate].
    injection E as <-. cbn [In]. rewrite !in_app_iff, <- in_rev. tauto.
Qed.

Lemma reachable_roots t rs id : roots M t = Ok rs ->
  (reachable (m_natives M) (t_host t) (t_heap t) rs id <->
   reachable (m_natives M) (t_host t) (t_heap t) (root_values M t) id).
Proof. intros R. split; apply reach_mono; intros v; apply (roots_in _ _ R). Qed.

Lemma keeps_ext {A} (P Q : A -> Prop) l l' : (forall x, P x <-> Q x) -> keeps P l l' -> keeps Q l l'.
Proof. intros E K. induction K; constructor; auto; try (apply E; auto); rewrite <- E; auto. Qed.

Lemma keeps_hget (P : nat -> Prop) h h' id : NoDup (map o_id h) ->
  keeps (fun o => P (o_id o)) h h' -> P id -> hget h' id = hget h id.
Proof.
  intros ND K Hp. induction K as [|x l l' Px K IH|x l l' Nx K IH]; auto.
  - simpl. inversion ND; subst. destruct (o_id x =? id); auto.
  - simpl. inversion ND; subst. destruct (Nat.eqb_spec (o_id x) id); [subst; contradiction|auto].
Qed.

Lemma gc_exact_L t t' : thread_ok t -> gc M t = Ok t' ->
  let live id := reachable (m_natives M) (t_host t) (t_heap t) (root_values M t) id in
  (forall id, live id -> hget (t_heap t) id <> None /\ hget (t_heap t') id = hget (t_heap t) id) /\
  exists dead,
    keeps (fun o => live (o_id o)) (t_heap t) (t_heap t') /\
    keeps (fun o => ~ live (o_id o)) (t_heap t) dead /\
    t_host t' = finalize_all (m_natives M) (t_host t) dead /\
    t_nobj t' = length (t_heap t') /\ t_max t' = (2 * length (t_heap t'))%nat /\
    thread_ok t' /\ root_values M t' = root_values M t /\
    t_pc t' = t_pc t /\ t_fp t' = t_fp t /\ t_frames t' = t_frames t.
Proof.
  intros OK G. pose proof (gc_frame _ _ _ G) as (G1 & G2 & G3 & G4 & G5 & G6 & G7).
  assert (OK' : thread_ok t').
  { eapply (gc_PT M ok3); [| exact OK|exact G]. intros; eapply ok3_gc; eauto. }
  unfold gc in G. destruct (roots M t) as [rs| | |] eqn:R; try discriminate.
  destruct (collect _ _ _ _ _) as [[[[h w] n] mx]| | |] eqn:C; try discriminate.
  injection G as Gt. destruct OK as (HO & HN & HF).
  destruct (collect_exact _ _ _ _ _ _ _ _ _ HO C) as (dead & K & D & W & Nn & Mx & Al & Nc).
  assert (EX : forall o : obj, reachable (m_natives M) (t_host t) (t_heap t) rs (o_id o) <->
     reachable (m_natives M) (t_host t) (t_heap t) (root_values M t) (o_id o)).
  { intros o. apply (reachable_roots _ _ _ R); auto. }
  cbn zeta. split.
  - intros id L. split; [apply Al; apply (reachable_roots _ _ _ R); auto|].
    rewrite <- Gt. cbn [t_heap]. eapply keeps_hget; [apply HO|exact K|].
    apply (reachable_roots _ _ _ R); auto.
  - exists dead. split; [rewrite <- Gt; cbn [t_heap]; eapply keeps_ext; [|exact K]; auto|].
    split; [eapply keeps_ext; [|exact D]; intros o; cbn; rewrite EX; tauto|].
    destruct OK' as (A1 & A2 & A3).
    split; [rewrite <- Gt; auto|]. split; [auto|]. split.
    { rewrite <- A2, <- Gt. cbn. lia. }
    split; [split; auto|]. split; [|auto]. unfold root_values. rewrite G3, G5, G6. reflexivity.
Qed.

Lemma roots_total t :
  (m_nglobals M <> 0%nat -> exists g, t_globs t = Some g /\ (m_nglobals M <= length g)%nat) ->
  exists rs, roots M t = Ok rs.
Proof.
  unfold roots. intros G. destruct (m_nglobals M) as [|n]; [eauto|].
  destruct G as (g & -> & L); [lia|]. apply Nat.leb_le in L. rewrite L. eauto.
Qed.

Lemma gc_total_L t : thread_ok t ->
  (m_nglobals M <> 0%nat -> exists g, t_globs t = Some g /\ (m_nglobals M <= length g)%nat) ->
  all_alive (m_natives M) (t_host t) (t_heap t) (root_values M t) ->
  ~ reachable_cycle (m_natives M) (t_host t) (t_heap t) (root_values M t) ->
  exists t', gc M t = Ok t'.
Proof.
  intros (HO & _) G Al Nc. destruct (roots_total _ G) as [rs R]. unfold gc. rewrite R.
  destruct (collect_total (m_natives M) (t_host t) (t_heap t) (t_nobj t) rs HO) as [[[[h w] n] mx] E].
  - intros id L. apply Al. apply (reachable_roots _ _ _ R); auto.
  - intros (id & L & P). apply Nc. exists id. split; auto. apply (reachable_roots _ _ _ R); auto.
  - rewrite E. eauto.
Qed.

Lemma gc_cycle_L t : thread_ok t ->
  (m_nglobals M <> 0%nat -> exists g, t_globs t = Some g /\ (m_nglobals M <= length g)%nat) ->
  all_alive (m_natives M) (t_host t) (t_heap t) (root_values M t) ->
  reachable_cycle (m_natives M) (t_host t) (t_heap t) (root_values M t) ->
  gc M t = UB /\ exists rs, roots M t = Ok rs /\
  forall fuel, mark_all (m_natives M) fuel (t_host t) (t_heap t) rs = Fuel.
Proof.
  intros (HO & _) G Al (id & L & P). destruct (roots_total _ G) as [rs R].
  assert (D : forall fuel, mark_all (m_natives M) fuel (t_host t) (t_heap t) rs = Fuel).
  { apply mark_diverges; auto.
    - intros x Lx. apply Al. apply (reachable_roots _ _ _ R); auto.
    - exists id. split; auto. apply (reachable_roots _ _ _ R); auto. }
  split; eauto. unfold gc. rewrite R. unfold collect. rewrite D. reflexivity.
Qed.

(** ** Structs *)
Lemma hget_hset h id f x : (forall o, o_id (f o) = o_id o) ->
  hget (hset h id f) x = if id =? x then option_map f (hget h x) else hget h x.
Proof.
  intros Hf. induction h as [|o h IH]; simpl; [destruct (id =? x); reflexivity|].
  destruct (Nat.eqb_spec (o_id o) id) as [E|E]; simpl; rewrite ?Hf.
  - destruct (Nat.eqb_spec (o_id o) x) as [E2|E2].
    + subst. rewrite Nat.eqb_refl. reflexivity.
    + destruct (Nat.eqb_spec id x); [congruence|reflexivity].
  - destruct (Nat.eqb_spec (o_id o) x) as [E2|E2].
    + destruct (Nat.eqb_spec id x); [congruence|reflexivity].
    + exact IH.
Qed.

Lemma gc_heap t t' : thread_ok t -> gc M t = Ok t' ->
  forall id o, hget (t_heap t') id = Some o -> hget (t_heap t) id = Some o.
Proof.
  intros (OK & _) G id o Hg. unfold gc in G. destruct (roots M t) as [rs| | |]; try discriminate.
  destruct (collect _ _ _ _ _) as [[[[h w] n] mx]| | |] eqn:C; try discriminate.
  inversion G; subst. cbn in Hg.
  destruct (collect_exact _ _ _ _ _ _ _ _ _ OK C) as (dead & K & _).
  assert (In o h /\ o_id o = id) as [Io Eo].
  { clear - Hg. induction h as [|x h IH]; simpl in Hg; [discriminate|].
    destruct (Nat.eqb_spec (o_id x) id); [inversion Hg; subst; simpl; auto|].
    destruct (IH Hg); simpl; auto. }
  apply (keeps_in _ _ _ K) in Io. subst id. apply hget_first; [apply OK|tauto].
Qed.

Lemma struct_set_L t k next id v s b t' :
  thread_ok t -> at_instr M t (IStructSet k) next -> t_stk t = VStruct id :: v :: s ->
  cycles M poll t (Ok (b, t')) ->
  t_stk t' = s /\ t_pc t' = next /\
  forall id' j, hget (t_heap t') id' <> None ->
    field_of (t_heap t') id' j =
      if (id' =? id) && (j =? Z.to_nat k) then Some v else field_of (t_heap t) id' j.
Proof.
  intros OK A S C. destruct (straight_pc _ _ _ _ _ _ _ A eq_refl C) as (Pc & _).
  destruct (cycles_inv _ _ _ _ _ _ _ A C) as (_ & f & t1 & E & G).
  assert (OK1 : thread_ok t1).
  { eapply (exec_PT M ok3 ok3_alloc ok3_set _) in E; [exact E| |exact OK].
    intros. eapply (call_PT M poll ok3); eauto using ok3_alloc, ok3_set. intros; eapply ok3_gc; eauto. }
  cbn [exec with_pc t_stk t_heap] in E. rewrite S in E.
  destruct (hget (t_heap t) id) as [[oi om [ | |fs]]|] eqn:Hid; try discriminate.
  destruct (Nat.ltb_spec (Z.to_nat k) (length fs)) as [Lk|]; [|discriminate].
  inversion E as [E1]. rewrite E1 in *.
  assert (FT : forall id' j, field_of (t_heap t1) id' j =
      if (id' =? id) && (j =? Z.to_nat k) then Some v else field_of (t_heap t) id' j).
  { intros id' j. rewrite <- E1. cbn [t_heap with_heap]. unfold field_of.
    rewrite hget_hset by reflexivity.
    destruct (Nat.eqb_spec id id') as [->|Ne].
    - rewrite Nat.eqb_refl, Hid. cbn [option_map andb].
      destruct (Nat.eqb_spec j (Z.to_nat k)) as [->|Nj].
      + apply nth_error_update_eq; auto.
      + apply nth_error_update_ne; auto.
    - destruct (Nat.eqb_spec id' id); [congruence|]. reflexivity. }
  destruct (poll _ _).
  - pose proof (gc_heap _ _ OK1 G) as GH. apply gc_frame in G. destruct G as (_ & _ & Gs & _).
    split; [rewrite Gs, <- E1; reflexivity|]. split; [auto|].
    intros id' j Al. rewrite <- FT. unfold field_of.
    destruct (hget (t_heap t') id') as [o|] eqn:Ho; [|congruence].
    rewrite (GH _ _ Ho). reflexivity.
  - subst t'. split; [rewrite <- E1; reflexivity|]. split; [auto|]. intros; apply FT.
Qed.

Lemma struct_get_L t k next id s b t' :
  at_instr M t (IStructGet k) next -> t_stk t = VStruct id :: s ->
  cycles M poll t (Ok (b, t')) ->
  exists v, field_of (t_heap t) id (Z.to_nat k) = Some v /\ t_stk t' = v :: s /\ t_pc t' = next.
Proof.
  intros A S C. destruct (straight_pc _ _ _ _ _ _ _ A eq_refl C) as (Pc & _).
  destruct (cycles_inv _ _ _ _ _ _ _ A C) as (_ & f & t1 & E & G).
  cbn [exec with_pc t_stk t_heap] in E. rewrite S in E. unfold field_of.
  destruct (hget (t_heap t) id) as [[oi om [ | |fs]]|] eqn:Hid; try discriminate.
  destruct (nth_error fs (Z.to_nat k)) as [v|]; [|discriminate].
  inversion E as [E1]. exists v. split; auto. split; auto.
  destruct (poll _ _).
  - apply gc_frame in G. destruct G as (_ & _ & Gs & _). rewrite Gs, <- E1. reflexivity.
  - rewrite G, <- E1. reflexivity.
Qed.

(** A new struct holds its constructor's values and is no other object. *)
Lemma struct_new_L t n next s b t' :
  thread_ok t -> at_instr M t (IPushStruct n) next -> cycles M poll t (Ok (b, t')) ->
  t_stk t' = s -> 
  exists id, s = VStruct id :: skipn (Z.to_nat n) (t_stk t) /\ hget (t_heap t) id = None /\
    (hget (t_heap t') id <> None -> forall j, field_of (t_heap t') id j =
       nth_error (rev (firstn (Z.to_nat n) (t_stk t))) j).
Proof.
  intros OK A C <-. destruct (cycles_inv _ _ _ _ _ _ _ A C) as (_ & f & t1 & E & G).
  assert (OK1 : thread_ok t1).
  { eapply (exec_PT M ok3 ok3_alloc ok3_set _) in E; [exact E| |exact OK].
    intros. eapply (call_PT M poll ok3); eauto using ok3_alloc, ok3_set. intros; eapply ok3_gc; eauto. }
  cbn [exec with_pc t_stk t_heap] in E. unfold oassert in E.
  destruct (0 <? n)%Z; [|discriminate]. destruct (_ <=? _); [|discriminate].
  unfold alloc in E. unfold push in E. destruct (room _ _); [|discriminate].
  injection E as E1. exists (t_next t).
  assert (Fresh : hget (t_heap t) (t_next t) = None).
  { destruct (hget (t_heap t) (t_next t)) eqn:G0; auto. exfalso.
    destruct OK as (_ & _ & F). assert (hget (t_heap t) (t_next t) <> None) as X by congruence.
    apply hget_in in X. apply in_map_iff in X. destruct X as (x & Ex & Ix).
    rewrite Forall_forall in F. specialize (F _ Ix). lia. }
  assert (S1 : t_stk t1 = VStruct (t_next t) :: skipn (Z.to_nat n) (t_stk t)) by (rewrite <- E1; reflexivity).
  assert (F1 : forall j, field_of (t_heap t1) (t_next t) j = nth_error (rev (firstn (Z.to_nat n) (t_stk t))) j).
  { intros j. rewrite <- E1. cbn. unfold field_of. simpl. rewrite Nat.eqb_refl. reflexivity. }
  destruct (poll _ _).
  - pose proof (gc_heap _ _ OK1 G) as GH. apply gc_frame in G. destruct G as (_ & _ & Gs & _).
    rewrite Gs. split; [auto|]. split; [auto|]. intros Al j. rewrite <- F1. unfold field_of.
    destruct (hget (t_heap t') (t_next t)) as [o|] eqn:Ho; [|congruence]. rewrite (GH _ _ Ho). reflexivity.
  - subst t'. auto.
Qed.

(** ** Host re-entry *)
Lemma call_restores_L t f a v t' : calls M poll t f a (Ok (v, t')) ->
  t_pc t' = t_pc t /\ t_fp t' = t_fp t /\ length (t_stk t') = length (t_stk t) /\
  t_frames t' = t_frames t /\ t_ret t' = t_ret t.
Proof. intros (_ & n & E). eapply call_ctl; eauto. Qed.

(** ** Threads *)
Definition host_same (t t' : thread H) : Prop := t_host t' = t_host t.

Lemma fprog_host callf p :
  (forall t f a v t', callf t f a = Ok (v, t') -> host_same t t') ->
  reads_only p -> forall t v t', run_fprog M callf p t = Ok (v, t') -> host_same t t'.
Proof.
  intros CC. induction p; intros RO t v' t' E; simpl in E, RO; try discriminate.
  - inversion E; subst; reflexivity.
  - eauto.
  - contradiction.
  - destruct (ref_of v); [|discriminate]. destruct (hget _ _); [|discriminate]. eauto.
  - apply H0 in E; auto.
  - destruct (0 <=? t_pc t)%Z; [|discriminate]. simpl in E. apply H0 in E; auto.
  - destruct (get_global M t i); try discriminate. eauto.
  - destruct (set_global M t i v) eqn:S; try discriminate.
    apply IHp in E; auto. unfold host_same in *. rewrite E.
    unfold set_global, oassert, glob_put in S. destruct (_ && _)%bool; [|discriminate].
    destruct (t_globs t); [|discriminate]. destruct (_ <? _); inversion S; subst. reflexivity.
  - destruct (callf t f args) as [[w t1]| | |] eqn:C; try discriminate.
    apply CC in C. apply H0 in E; auto. unfold host_same in *. congruence.
Qed.

Lemma push_host t v t' : push M t v = Ok t' -> t_host t' = t_host t.
Proof. unfold push. destruct (room _ _); intros E; inversion E; subst; auto. Qed.
Lemma pop_host (t : thread H) v t' : pop t = Ok (v, t') -> t_host t' = t_host t.
Proof. unfold pop. destruct (t_stk t); intros E; inversion E; subst; auto. Qed.
Lemma pop_indir_host (t t' : thread H) : pop_indir t = Ok t' -> t_host t' = t_host t.
Proof.
  unfold pop_indir. destruct (t_frames t); [discriminate|]. destruct (_ <=? _); [|discriminate].
  destruct (cut _ _); try discriminate. destruct (cut _ _); try discriminate.
  intros E; inversion E; subst; auto.
Qed.
Lemma glob_put_host (t : thread H) i v t' : glob_put t i v = Ok t' -> t_host t' = t_host t.
Proof.
  unfold glob_put. destruct (t_globs t); [|discriminate]. destruct (_ <? _); [|discriminate].
  intros E; inversion E; subst; auto.
Qed.

Lemma exec_host callf i t t' : host_read_only M ->
  (forall t f a v t', callf t f a = Ok (v, t') -> host_same t t') ->
  exec M callf i t = Ok t' -> host_same t t'.
Proof.
  intros RO CC E. unfold host_same.
  destruct i; cbn [exec] in E; try (apply push_host in E; exact E).
  - destruct (room _ _); inversion E; subst; auto.
  - destruct (_ <? _)%Z; [discriminate|]. destruct (nth_error _ _); [|discriminate]. apply push_host in E; exact E.
  - destruct (_ <? _)%Z; [discriminate|]. destruct (nth_error _ _); [|discriminate]. apply push_host in E; exact E.
  - unfold oassert in E. destruct (_ <? _)%Z; [|discriminate]. destruct (_ <=? _); [|discriminate].
    unfold alloc in E. apply push_host in E; exact E.
  - destruct (t_stk t) as [|[] s]; try discriminate.
    destruct (hget (t_heap t) id) as [[? ? []]|]; try discriminate.
    destruct (nth_error _ _); inversion E; subst; auto.
  - destruct (t_stk t) as [|[] [|v s]]; try discriminate.
    destruct (hget (t_heap t) id) as [[? ? []]|]; try discriminate.
    destruct (_ <? _); inversion E; subst; auto.
  - destruct (t_stk t) as [|b [|a s]]; try discriminate. obinv E. inversion E; subst; auto.
  - destruct (t_stk t) as [|a s]; try discriminate. obinv E. inversion E; subst; auto.
  - destruct (t_stk t) as [|a s]; try discriminate. obinv E. inversion E; subst; auto.
  - destruct (t_stk t) as [|b [|a s]]; try discriminate. obinv E. inversion E; subst; auto.
  - destruct (t_stk t) as [|a s]; try discriminate. obinv E. inversion E; subst; auto.
  - obinv E. destruct r as [v t1]. apply pop_host in Em. apply glob_put_host in E. congruence.
  - obinv E. apply push_host in E; exact E.
  - inversion E; subst; auto.
  - obinv E. destruct r as [v t1]. obinv E. apply pop_host in Em. inversion E; subst. destruct r; auto.
  - obinv E. unfold push_indir, oassert in Em. destruct (_ <? _); [|discriminate]. inversion Em; subst.
    destruct (nth_error _ _); inversion E; subst; auto.
  - apply pop_indir_host in E. exact E.
  - obinv E. destruct r as [v t1]. apply pop_host in Em. apply pop_indir_host in E. cbn in E. congruence.
  - destruct (_ <=? _); [|discriminate]. destruct (nth_error (m_foreign M) _) as [fn|] eqn:F; [|discriminate].
    obinv E. destruct r as [v t1]. obinv E. inversion E; subst. cbn.
    eapply fprog_host in Em; eauto. apply (proj1 RO). eapply nth_error_In; eauto.
  - obinv E. apply push_host in E; exact E.
  - obinv E. apply push_host in E; exact E.
  - obinv E. destruct r as [v t1]. obinv E. apply pop_host in Em. inversion E; subst; auto.
  - inversion E; subst; auto.
Qed.

Lemma gc_host t t' : host_read_only M -> gc M t = Ok t' -> host_same t t'.
Proof.
  intros RO G. unfold gc in G. destruct (roots M t) as [rs| | |]; try discriminate.
  destruct (collect _ _ _ _ _) as [[[[h w] n] mx]| | |] eqn:C; try discriminate.
  inversion G; subst. unfold host_same; cbn. unfold collect in C.
  destruct (mark_all _ _ _ _ _) as [h1| | |]; try discriminate. rewrite sweep_spec in C.
  inversion C; subst. unfold finalize_all. generalize (filter (fun o => negb (o_mark o)) h1).
  generalize (t_host t). intros w l. revert w. induction l as [|o l IH]; intros w; simpl; auto.
  rewrite IH. destruct (o_body o); auto. destruct (prop =? 0); auto. apply (proj2 RO).
Qed.

Lemma loop_host : host_read_only M -> forall fuel,
  (forall floor t t', loop M poll fuel floor t = Ok t' -> host_same t t').
Proof.
  intros RO. induction fuel as [|f IH]; intros floor t t' E.
  - simpl in E. destruct (match floor with Some fc => _ | None => _ end); inversion E; subst; reflexivity.
  - rewrite loop_S in E. destruct (match floor with Some fc => _ | None => _ end).
    2:{ inversion E; subst; reflexivity. }
    obinv E. destruct r as [b t1].
    assert (CC : forall t f' a v t', call_function M poll f t f' a = Ok (v, t') -> host_same t t').
    { intros t0 f' a v t2 C. unfold call_function in C. obinv C. obinv C.
      apply IH in Em1. unfold leave_call in C. obinv C. destruct (_ <=? _); inversion C; subst.
      unfold host_same in *; cbn. rewrite Em1. unfold enter_call, oassert, push_indir, oassert in Em0.
      destruct (0 <=? f')%Z; [|discriminate]. destruct (room _ _); [|discriminate].
      destruct (nth_error _ _); [|discriminate]. destruct (_ <? _); inversion Em0; subst. cbn.
      unfold alloc_globals. destruct (t_globs t0); reflexivity. }
    assert (host_same t t1).
    { unfold cycle in Em. destruct (_ <? _)%Z. { inversion Em; subst; reflexivity. }
      obinv Em. destruct r as [i nx]. obinv Em. obinv Em. inversion Em; subst.
      apply (exec_host _ _ _ _ RO CC) in Em1. unfold host_same in *. cbn in Em1.
      destruct (poll _ _); [apply gc_host in Em2; auto; unfold host_same in Em2; congruence|].
      inversion Em2; subst; auto. }
    destruct b; [apply IH in E; unfold host_same in *; congruence|].
    inversion E; subst; auto.
Qed.

Lemma cycles_host t b t' : host_read_only M -> cycles M poll t (Ok (b, t')) -> t_host t' = t_host t.
Proof.
  intros RO (_ & f & E). pose proof (loop_host RO) as L.
  assert (CC : forall t f' a v t', call_function M poll f t f' a = Ok (v, t') -> host_same t t').
  { intros t0 f' a v t2 C. unfold call_function in C. obinv C. obinv C.
    apply L in Em0. unfold leave_call in C. obinv C. destruct (_ <=? _); inversion C; subst.
    unfold host_same in *; cbn. rewrite Em0. unfold enter_call, oassert, push_indir, oassert in Em.
    destruct (0 <=? f')%Z; [|discriminate]. destruct (room _ _); [|discriminate].
    destruct (nth_error _ _); [|discriminate]. destruct (_ <? _); inversion Em; subst. cbn.
    unfold alloc_globals. destruct (t_globs t0); reflexivity. }
  unfold execute_cycle, cycle in E. destruct (_ <? _)%Z. { inversion E; subst; reflexivity. }
  obinv E. destruct r as [i nx]. obinv E. obinv E. inversion E; subst.
  apply (exec_host _ _ _ _ RO CC) in Em0. unfold host_same in *. cbn in Em0.
  destruct (poll _ _); [apply gc_host in Em1; auto; unfold host_same in Em1; congruence|].
  inversion Em1; subst; auto.
Qed.

Lemma threads_isolated_L : host_read_only M ->
  forall w ts sched w' ts', sys_run M poll (w, ts) sched (w', ts') ->
  w' = w /\ length ts' = length ts /\
  forall i t, nth_error ts i = Some t ->
    exists t', nth_error ts' i = Some t' /\ solo_run M poll w t (count_occ Nat.eq_dec sched i) t'.
Proof.
  intros RO w ts sched w' ts' R.
  remember (w, ts) as s eqn:Es. remember (w', ts') as s' eqn:Es'.
  revert w ts Es w' ts' Es'. induction R as [s|w0 ts0 i t b t' sched s' N C R IH]; intros w ts Es w' ts' Es'.
  - subst. inversion Es'; subst. repeat split; auto. intros i t N. exists t. split; auto. constructor.
  - inversion Es; subst w0 ts0. pose proof (cycles_host _ _ _ RO C) as Hw. cbn in Hw.
    destruct (IH _ _ eq_refl _ _ Es') as (-> & L & IHt). rewrite Hw in *.
    split; auto. rewrite update_length in L. split; auto.
    intros j u Nu. destruct (Nat.eq_dec i j) as [->|Ne].
    + rewrite N in Nu. inversion Nu; subst u.
      destruct (IHt j t') as (t2 & N2 & S2).
      { apply nth_error_update_eq. apply nth_error_Some. congruence. }
      exists t2. split; auto. rewrite count_occ_cons_eq by auto. econstructor; eauto.
    + destruct (IHt j u) as (t2 & N2 & S2). { rewrite nth_error_update_ne; auto. }
      exists t2. split; auto. rewrite count_occ_cons_neq; auto.
Qed.

(** ** Disassembler *)
Definition disasm_knows (i : instr) : bool :=
  match i with IBin OShl | IBin OShr | IPushString _ => false | _ => true end.

Lemma byte_at_range p pc b : byte_at p pc = Ok b -> (0 <= pc < plen p)%Z.
Proof.
  unfold byte_at, plen. destruct (Z.ltb_spec pc 0); [discriminate|].
  destruct (nth_error p (Z.to_nat pc)) eqn:E; [|discriminate].
  intros _. assert (nth_error p (Z.to_nat pc) <> None) by congruence.
  apply nth_error_Some in H1. lia.
Qed.

Lemma disasm_decode p strs fpcs pc i next :
  decode p pc = Ok (i, next) -> disasm_knows i = true ->
  (forall k, i = IPushStringFF k -> nth_error strs (Z.to_nat k) <> None) ->
  (forall n k, i = ICall n k -> nth_error fpcs (Z.to_nat k) <> None) ->
  (forall n, i = IPushStruct n -> (0 < n)%Z) ->
  disasm_one p strs fpcs pc =
    Ok (Some (fst (written i), snd (written i), if (plen p <=? next)%Z then (-1)%Z else next)).
Proof.
  intros D K HS HC HN. unfold decode in D. unfold disasm_one.
  destruct (byte_at p pc) as [op| | |] eqn:B; try discriminate.
  pose proof (byte_at_range _ _ _ B) as R.
  assert ((pc <? 0) || (plen p <=? pc) = false)%Z%bool as ->.
  { apply Bool.orb_false_iff. split; [apply Z.ltb_ge|apply Z.leb_gt]; lia. }
  repeat match type of D with
  | context [match op with _ => _ end] =>
      destruct op; try discriminate D
  | context [match ?q with xI _ => _ | xO _ => _ | xH => _ end] =>
      destruct q; try discriminate D
  end;
  repeat match type of D with
  | match ?x with _ => _ end = _ =>
      destruct x eqn:?; try discriminate D
  end;
  injection D as Di Dn; subst i next; try discriminate K;
  try (reflexivity).
  all: first
    [ specialize (HN _ eq_refl); apply Z.ltb_lt in HN; rewrite HN; reflexivity
    | specialize (HC _ _ eq_refl); destruct (nth_error fpcs _); [reflexivity|congruence]
    | specialize (HS _ eq_refl); destruct (nth_error strs _); [reflexivity|congruence] ].
Qed.

(** The disassembler's next address is the VM's. *)
Lemma disasm_agrees_L t i next b t' :
  at_instr M t i next -> straight i = true -> disasm_knows i = true ->
  cycles M poll t (Ok (b, t')) ->
  disasm_one (m_code M) (m_strings M) (m_fpcs M) (t_pc t) =
    Ok (Some (fst (written i), snd (written i), if (plen (m_code M) <=? t_pc t')%Z then (-1)%Z else t_pc t')).
Proof.
  intros A S K C. destruct (straight_pc _ _ _ _ _ _ _ A S C) as (-> & _).
  destruct (cycles_inv _ _ _ _ _ _ _ A C) as (_ & f & t1 & E & _). destruct A as [P D].
  eapply disasm_decode; eauto.
  - intros k ->. cbn [exec] in E. destruct (k <? 0)%Z; [discriminate|].
    destruct (nth_error _ _); [congruence|discriminate].
  - intros n k ->. discriminate.
  - intros n ->. cbn [exec] in E. unfold oassert in E. destruct (0 <? n)%Z eqn:L; [|discriminate].
    apply Z.ltb_lt. auto.
Qed.
End P.
