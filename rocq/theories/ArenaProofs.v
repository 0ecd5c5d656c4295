From Verif Require Import Base Arena ArenaSpec.
Local Open Scope Z_scope.

Lemma land_mask v k : 0 <= v < 2^64 -> 0 < k <= 62 ->
  Z.land v (2^64 - 1 - (2^k - 1) mod 2^64) = v / 2^k * 2^k.
Proof.
  intros Hv Hk.
  assert (P : 0 < 2^k) by (apply Z.pow_pos_nonneg; lia).
  assert (P2 : 2^k <= 2^62) by (apply Z.pow_le_mono_r; lia).
  rewrite (Z.mod_small (2^k - 1)) by lia.
  replace (2^64 - 1 - (2^k - 1)) with (Z.shiftl (Z.ones (64 - k)) k).
  2: { rewrite Z.shiftl_mul_pow2 by lia. rewrite Z.ones_equiv.
       replace (2^64) with (2^(64-k) * 2^k) by (rewrite <- Z.pow_add_r by lia; f_equal; lia).
       unfold Z.pred. ring. }
  rewrite <- Z.shiftl_mul_pow2, <- Z.shiftr_div_pow2 by lia.
  apply Z.bits_inj'. intros n Hn. rewrite Z.land_spec.
  rewrite !Z.shiftl_spec by lia.
  destruct (Z.lt_ge_cases n k) as [L|G].
  - rewrite !(Z.testbit_neg_r _ (n - k)) by lia. apply andb_false_r.
  - rewrite Z.shiftr_spec by lia. replace (n - k + k) with n by lia.
    rewrite Z.testbit_ones_nonneg by lia.
    destruct (Z.lt_ge_cases n 64) as [L'|G'].
    + replace (n - k <? 64 - k) with true by (symmetry; apply Z.ltb_lt; lia). apply andb_true_r.
    + replace (n - k <? 64 - k) with false by (symmetry; apply Z.ltb_ge; lia).
      rewrite andb_false_r. symmetry.
      destruct (Z.eq_dec v 0) as [->|Nz]; [apply Z.bits_0|].
      apply Z.bits_above_log2; [lia|]. apply Z.log2_lt_pow2; [lia|].
      apply Z.lt_le_trans with (2^64); [lia|]. apply Z.pow_le_mono_r; lia.
Qed.

Lemma next_multiple v k : 0 <= v < 2^62 -> 0 <= k <= 61 ->
  exists n, next_multiple_of v (2^k) = Ok n /\ v <= n <= v + 2^k /\ n mod 2^k = 0.
Proof.
  intros Hv Hk. unfold next_multiple_of.
  destruct (Z.eq_dec k 0) as [->|Nk].
  - simpl. exists v. repeat split; try lia. apply Z.mod_1_r.
  - assert (P : 0 < 2^k) by (apply Z.pow_pos_nonneg; lia).
    assert (P2 : 2^k <= 2^61) by (apply Z.pow_le_mono_r; lia).
    assert (E : 2^k = 2 * 2^(k-1)) by (rewrite <- Z.pow_succ_r by lia; f_equal; lia).
    assert (P3 : 0 < 2^(k-1)) by (apply Z.pow_pos_nonneg; lia).
    replace (2^k =? 1) with false by (symmetry; apply Z.eqb_neq; lia).
    replace (2^k mod 2 =? 0) with true
      by (symmetry; apply Z.eqb_eq; rewrite E, Z.mul_comm; apply Z.mod_mul; lia).
    cbn [oassert]. rewrite land_mask by lia.
    pose proof (Z.div_mod v (2^k) ltac:(lia)) as D.
    pose proof (Z.mod_pos_bound v (2^k) P) as B.
    exists (v / 2^k * 2^k + 2^k). split; [f_equal; apply Z.mod_small; nia|].
    split; [nia|]. replace (v / 2 ^ k * 2 ^ k + 2 ^ k) with ((v / 2^k + 1) * 2^k) by ring.
    apply Z.mod_mul. lia.
Qed.

(** Invariant: pages have distinct names below the counter, uses stay within
    capacities, and every block handed out lies below its page's [used]. *)
Definition page_ok (p : page) : Prop := 0 <= p_used p <= p_cap p /\ p_cap p < 2^62.

Record AInv (a : arena) (bs : list (addr * Z)) : Prop := {
  ai_nodup : NoDup (map p_id (a_pages a));
  ai_ids : forall i, In i (map p_id (a_pages a)) <-> (i < a_next a)%nat;
  ai_pages : forall p, In p (a_pages a) -> page_ok p;
  ai_blocks : forall x s, In (x, s) bs -> 0 <= s /\
     exists p, In p (a_pages a) /\ p_id p = fst x /\ 0 <= snd x /\ snd x + s <= p_used p
}.

Lemma alloc_inv a bs size align : AInv a bs -> good_request (size, align) ->
  exists a' x, arena_alloc a size align = Ok (a', x) /\ AInv a' ((x, size) :: bs) /\
    snd x mod align = 0 /\ (forall y s, In (y, s) bs -> disjoint x size y s).
Proof.
  intros [ND IDS PG BL] [Hs (k & Hk & Hal)]. simpl in Hs, Hal. subst align.
  assert (Pk : 0 < 2^k) by (apply Z.pow_pos_nonneg; lia).
  assert (New : ~ In (a_next a) (map p_id (a_pages a))) by (rewrite IDS; lia).
  assert (NP : forall cap pages, page_ok (mkPage (a_next a) cap size) ->
    (forall p, In p pages <-> p = mkPage (a_next a) cap size \/ In p (a_pages a)) ->
    NoDup (map p_id pages) ->
    AInv (mkArena pages (S (a_next a))) (((a_next a, 0), size) :: bs) /\
    0 mod 2^k = 0 /\ (forall y s, In (y, s) bs -> disjoint (a_next a, 0) size y s)).
  { intros cap pages Hok Hin HND. split; [|split].
    - split; cbn [a_pages a_next].
      + exact HND.
      + intros i. rewrite in_map_iff. split.
        * intros (p & <- & Hp). apply Hin in Hp as [->|Hp]; simpl; [lia|].
          apply (in_map p_id) in Hp. apply IDS in Hp. lia.
        * intros Hi. destruct (Nat.eq_dec i (a_next a)) as [->|Ne].
          -- exists (mkPage (a_next a) cap size). split; [reflexivity|]. apply Hin. auto.
          -- assert (X : In i (map p_id (a_pages a))) by (apply IDS; lia).
             apply in_map_iff in X as (p & E & Hp). exists p. split; [exact E|]. apply Hin; auto.
      + intros p Hp. apply Hin in Hp as [->|Hp]; [exact Hok|auto].
      + intros x s [E|Hx].
        * injection E as <- <-. split; [lia|]. exists (mkPage (a_next a) cap size).
          cbn. repeat split; try lia. apply Hin; auto.
        * destruct (BL x s Hx) as [S0 (p & Hp & R)]. split; [exact S0|]. exists p.
          split; [apply Hin; auto|exact R].
    - apply Z.mod_0_l. lia.
    - intros y s Hy. left. cbn [fst]. destruct (BL y s Hy) as [_ (p & Hp & E & _)].
      apply (in_map p_id) in Hp. rewrite E in Hp. intros C. apply New. rewrite C. exact Hp. }
  unfold arena_alloc. destruct (arena_page_size <? size) eqn:Big.
  - unfold arena_page_size in Big. apply Z.ltb_lt in Big.
    eexists _, _. split; [reflexivity|]. cbn [fresh_page p_id].
    apply (NP size).
    + unfold page_ok; cbn; lia.
    + intros p. unfold fresh_page. destruct (a_pages a) as [|hd tl]; cbn [In]; intuition congruence.
    + destruct (a_pages a) as [|hd tl]; cbn in *.
      * repeat constructor. auto.
      * inversion ND; subst. constructor.
        -- intros [E|C]; [|contradiction]. apply New. left. symmetry; exact E.
        -- constructor; [|assumption]. intros C. apply New. right; exact C.
  - unfold arena_page_size in Big. apply Z.ltb_ge in Big.
    assert (NewPage : exists a' x,
       Ok (mkArena (fresh_page a arena_page_size size :: a_pages a) (S (a_next a)),
           (p_id (fresh_page a arena_page_size size), 0)) = Ok (a', x) /\
       AInv a' ((x, size) :: bs) /\ snd x mod 2^k = 0 /\
       (forall y s, In (y, s) bs -> disjoint x size y s)).
    { eexists _, _. split; [reflexivity|]. cbn [fresh_page p_id].
      apply (NP arena_page_size).
      - unfold page_ok, arena_page_size; cbn; lia.
      - intros p. unfold fresh_page. cbn [In]. intuition congruence.
      - cbn. constructor; assumption. }
    destruct (a_pages a) as [|hd tl] eqn:Epg; [exact NewPage|].
    destruct (PG hd (or_introl eq_refl)) as [Hu Hc].
    destruct (next_multiple (p_used hd) k ltac:(lia) Hk) as (n & En & Bn & Mn).
    rewrite En. cbn [obind].
    assert (P61 : 2^k <= 2^61) by (apply Z.pow_le_mono_r; lia).
    rewrite (Z.mod_small (n + size)) by lia.
    destruct (p_cap hd <? n + size) eqn:Fit; [exact NewPage|]. apply Z.ltb_ge in Fit.
    rewrite Z.mod_small by lia. replace (n + size - size) with n by lia.
    eexists _, _. split; [reflexivity|]. split; [|split].
    + split; cbn [a_pages a_next].
      * exact ND.
      * exact IDS.
      * intros p [<-|Hp]; [unfold page_ok; cbn; lia|]. apply PG. right; exact Hp.
      * intros x s [E|Hx].
        -- injection E as <- <-. split; [lia|]. eexists. split; [left; reflexivity|]. cbn. lia.
        -- destruct (BL x s Hx) as [S0 (p & [->|Hp] & E & R)].
           ++ split; [exact S0|]. eexists. split; [left; reflexivity|]. cbn. lia.
           ++ split; [exact S0|]. exists p. split; [right; exact Hp|auto].
    + exact Mn.
    + intros y s Hy. destruct (BL y s Hy) as [S0 (p & [<-|Hp] & E & R)].
      * right. right. cbn [snd]. lia.
      * left. cbn [fst]. intros C. cbn [map] in ND. inversion ND; subst.
        match goal with H : ~ In _ _ |- _ => apply H end. rewrite C, <- E. apply in_map. exact Hp.
Qed.

Lemma run_inv rs : forall a bs, AInv a bs -> Forall good_request rs ->
  exists a' xs, arena_run a rs = Ok (a', xs) /\ length xs = length rs /\
    AInv a' (rev (combine xs (map fst rs)) ++ bs) /\
    (forall i size align x, answered rs xs i size align x ->
       snd x mod align = 0 /\ (forall y s, In (y, s) bs -> disjoint x size y s)) /\
    (forall i j size align x size' align' y, (i < j)%nat ->
       answered rs xs i size align x -> answered rs xs j size' align' y ->
       disjoint y size' x size).
Proof.
  induction rs as [|[size align] rs IH]; intros a bs HI HG.
  - exists a, []. split; [reflexivity|]. split; [reflexivity|]. split; [exact HI|]. split.
    + intros i s al x [H _]. destruct i; discriminate.
    + intros i j s al x s' al' y _ [H _] _. destruct i; discriminate.
  - inversion HG as [|? ? G1 G2]; subst.
    destruct (alloc_inv a bs size align HI G1) as (a1 & x & E1 & I1 & M1 & D1).
    destruct (IH a1 ((x, size) :: bs) I1 G2) as (a2 & xs & E2 & L2 & I2 & A2 & D2).
    exists a2, (x :: xs). cbn [arena_run]. rewrite E1. cbn [obind]. rewrite E2. cbn [obind].
    split; [reflexivity|]. split; [simpl; congruence|]. split; [|split].
    + cbn [map fst combine rev]. rewrite <- app_assoc. exact I2.
    + intros [|i] s al y [H1 H2]; cbn [nth_error] in H1, H2.
      * injection H1 as <- <-. injection H2 as <-. auto.
      * destruct (A2 i s al y (conj H1 H2)) as [M D]. split; [exact M|].
        intros z sz Hz. apply D. right; exact Hz.
    + intros [|i] [|j] s al y s' al' z Lij [H1 H2] [H3 H4]; cbn [nth_error] in *; try lia.
      * injection H1 as <- <-. injection H2 as <-.
        apply (proj2 (A2 j s' al' z (conj H3 H4))). left; reflexivity.
      * eapply (D2 i j); try split; eauto. lia.
Qed.

Lemma init_inv : AInv init_arena [].
Proof.
  split; cbn.
  - constructor.
  - intros i. lia.
  - intros p [].
  - intros x s [].
Qed.

Lemma nth_combine {A B} (l : list A) (m : list B) i a b :
  nth_error l i = Some a -> nth_error m i = Some b -> In (a, b) (combine l m).
Proof.
  revert m i. induction l as [|x l IH]; intros [|y m] [|i]; simpl; try discriminate.
  - intros [= <-] [= <-]. auto.
  - intros. right. eauto.
Qed.

Lemma disjoint_sym x sx y sy : disjoint x sx y sy -> disjoint y sy x sx.
Proof. unfold disjoint. intuition congruence. Qed.

Lemma arena_L rs : Forall good_request rs ->
  exists a xs, arena_run init_arena rs = Ok (a, xs) /\ length xs = length rs /\
    (forall i size align x, answered rs xs i size align x ->
       in_page a x size /\ snd x mod align = 0) /\
    (forall i j size align x size' align' y, i <> j ->
       answered rs xs i size align x -> answered rs xs j size' align' y ->
       disjoint x size y size') /\
    NoDup (destroy_arena a) /\ (forall p, In p (destroy_arena a) <-> (p < a_next a)%nat).
Proof.
  intros HG. destruct (run_inv rs init_arena [] init_inv HG) as (a & xs & E & L & I & A & D).
  exists a, xs. split; [exact E|]. split; [exact L|]. split; [|split; [|split]].
  - intros i size align x H. split; [|apply (A i size align x H)].
    destruct H as [H1 H2].
    destruct (ai_blocks _ _ I x size) as [_ (p & Hp & Ei & R)].
    { apply in_or_app. left. apply in_rev. rewrite rev_involutive.
      apply nth_combine with i; [exact H2|]. rewrite nth_error_map, H1. reflexivity. }
    destruct (ai_pages _ _ I p Hp) as [U _].
    exists p. repeat split; auto; lia.
  - intros i j s al x s' al' y Ne Hi Hj.
    destruct (Nat.lt_ge_cases i j) as [Lt|Ge].
    + apply disjoint_sym. eapply (D i j); eauto.
    + eapply (D j i); eauto. lia.
  - apply (ai_nodup _ _ I).
  - apply (ai_ids _ _ I).
Qed.

(** Earlier pages survive later requests with their capacity. *)
Lemma alloc_keeps a size align a' x : arena_alloc a size align = Ok (a', x) ->
  forall p, In p (a_pages a) -> exists p', In p' (a_pages a') /\ p_id p' = p_id p /\ p_cap p' = p_cap p.
Proof.
  unfold arena_alloc. intros H p Hp.
  destruct (arena_page_size <? size).
  - injection H as <- _. exists p. destruct (a_pages a) as [|hd tl]; cbn in *; intuition.
  - destruct (a_pages a) as [|hd tl]; [destruct Hp|].
    destruct (next_multiple_of (p_used hd) align) as [n| | |]; try discriminate. cbn [obind] in H.
    destruct (p_cap hd <? (n + size) mod 2^64); injection H as <- _; cbn [a_pages].
    + exists p. split; [right; exact Hp|auto].
    + destruct Hp as [<-|Hp]; [eexists; split; [left; reflexivity|auto]|].
      exists p. split; [right; exact Hp|auto].
Qed.
