From Verif Require Import Base Float64 Values ValuesSpec.

Lemma until_nul_free s : nul_free s -> until_nul s = s.
Proof.
  unfold nul_free. induction s as [|c s IH]; intros H; simpl; [reflexivity|].
  destruct (Ascii.eqb c "000") eqn:E.
  - apply Ascii.eqb_eq in E. subst c. exfalso. apply H. left; reflexivity.
  - f_equal. apply IH. intros X. apply H. right; exact X.
Qed.

Lemma until_nul_is_free s : nul_free (until_nul s).
Proof.
  unfold nul_free. induction s as [|c s IH]; simpl; [tauto|].
  destruct (Ascii.eqb c "000") eqn:E; [simpl; tauto|]. intros [X|X]; [|tauto].
  subst c. rewrite Ascii.eqb_refl in E. discriminate.
Qed.

Lemma strncmp_eq_spec a : forall b, length a = length b ->
  strncmp_eq a b (length a) = true <-> until_nul a = until_nul b.
Proof.
  induction a as [|x a IH]; intros [|y b] H; simpl in *; try discriminate.
  - tauto.
  - injection H as H. specialize (IH b H).
    destruct (Ascii.eqb x y) eqn:E.
    + apply Ascii.eqb_eq in E. subst y. destruct (Ascii.eqb x "000"); [tauto|].
      rewrite IH. split; intros X; [f_equal; exact X|injection X as X; exact X].
    + split; [discriminate|]. intros X. exfalso.
      destruct (Ascii.eqb x "000") eqn:Ex, (Ascii.eqb y "000") eqn:Ey; try discriminate.
      * apply Ascii.eqb_eq in Ex, Ey. subst. rewrite Ascii.eqb_refl in E. discriminate.
      * injection X as X _. subst. rewrite Ascii.eqb_refl in E. discriminate.
Qed.

Lemma str_equal_spec a b :
  str_equal a b = true <-> length a = length b /\ until_nul a = until_nul b.
Proof.
  unfold str_equal. destruct (Nat.eqb (length a) (length b)) eqn:E.
  - apply Nat.eqb_eq in E. rewrite (strncmp_eq_spec a b E). tauto.
  - apply Nat.eqb_neq in E. split; [discriminate|tauto].
Qed.

Lemma bool_eq_iff (a b : bool) : (a = true <-> b = true) -> a = b.
Proof. destruct a, b; intros H; try reflexivity; destruct H; intuition congruence. Qed.

Lemma str_equal_sym a b : str_equal a b = str_equal b a.
Proof. apply bool_eq_iff. rewrite !str_equal_spec. intuition congruence. Qed.

Lemma values_equal_sym_L h a b : values_equal h a b = values_equal h b a.
Proof.
  destruct a, b; cbn [values_equal]; try reflexivity;
    try (destruct (str_content h _) as [[?|]| | |]; try reflexivity;
         destruct (str_content h _) as [[?|]| | |]; try reflexivity;
         rewrite str_equal_sym; reflexivity).
  - f_equal. destruct b, b0; reflexivity.
  - f_equal. apply Z.eqb_sym.
  - f_equal. apply feqb_sym.
  - destruct (to_addr h (VNative id)), (to_addr h (VNative id0)); try reflexivity.
    f_equal. apply Z.eqb_sym.
  - f_equal. apply Z.eqb_sym.
  - f_equal. apply Nat.eqb_sym.
Qed.

(** Kinds and string contents of equal values. *)
Definition strval (v : value) : bool := match v with VStr _ | VCStr _ => true | _ => false end.

Lemma values_equal_strings h a b :
  strval a = true -> strval b = true ->
  values_equal h a b =
  match str_content h a, str_content h b with
  | Ok (Some x), Ok (Some y) => Ok (str_equal x y)
  | _, _ => UB
  end.
Proof. destruct a, b; try discriminate; reflexivity. Qed.

Lemma values_equal_strval h a b :
  values_equal h a b = Ok true -> strval a = strval b.
Proof. destruct a, b; cbn [values_equal strval]; try reflexivity; discriminate. Qed.

Lemma values_equal_trans_L h a b c :
  values_equal h a b = Ok true -> values_equal h b c = Ok true -> values_equal h a c = Ok true.
Proof.
  intros H1 H2. destruct (strval a) eqn:Sa.
  - pose proof (values_equal_strval _ _ _ H1) as Sb. rewrite Sa in Sb. symmetry in Sb.
    pose proof (values_equal_strval _ _ _ H2) as Sc. rewrite Sb in Sc. symmetry in Sc.
    rewrite values_equal_strings in * by assumption.
    destruct (str_content h a) as [[x|]| | |]; try discriminate.
    destruct (str_content h b) as [[y|]| | |]; try discriminate.
    destruct (str_content h c) as [[z|]| | |]; try discriminate.
    injection H1 as H1. injection H2 as H2. f_equal.
    rewrite str_equal_spec in *. intuition congruence.
  - destruct a, b; cbn [values_equal strval] in *; try discriminate;
      destruct c; cbn [values_equal] in *; try discriminate; try reflexivity.
    + injection H1 as H1. injection H2 as H2. f_equal.
      apply Bool.eqb_prop in H1, H2. subst. apply Bool.eqb_reflx.
    + injection H1 as H1. injection H2 as H2. f_equal. apply Z.eqb_eq in H1, H2. apply Z.eqb_eq. congruence.
    + injection H1 as H1. injection H2 as H2. f_equal. eapply feqb_trans; eauto.
    + destruct (to_addr h (VNative id)); try discriminate.
      destruct (to_addr h (VNative id0)); try discriminate.
      destruct (to_addr h (VNative id1)); try discriminate.
      injection H1 as H1. injection H2 as H2. f_equal. apply Z.eqb_eq in H1, H2. apply Z.eqb_eq. congruence.
    + injection H1 as H1. injection H2 as H2. f_equal. apply Z.eqb_eq in H1, H2. apply Z.eqb_eq. congruence.
    + injection H1 as H1. injection H2 as H2. f_equal.
      apply Nat.eqb_eq in H1, H2. apply Nat.eqb_eq. congruence.
Qed.

Lemma str_content_live h v : live h v -> strval v = true ->
  exists s, str_content h v = Ok (Some s).
Proof.
  destruct v; try discriminate; intros H _; simpl in *.
  - destruct H as (m & s & ->). eauto.
  - eauto.
Qed.

Lemma values_equal_total_L h a b : live h a -> live h b -> exists t, values_equal h a b = Ok t.
Proof.
  intros Ha Hb. destruct (strval a) eqn:Sa, (strval b) eqn:Sb.
  - rewrite values_equal_strings by assumption.
    destruct (str_content_live h a Ha Sa) as (x & ->).
    destruct (str_content_live h b Hb Sb) as (y & ->). eauto.
  - destruct a, b; try discriminate; cbn [values_equal]; eauto.
  - destruct a, b; try discriminate; cbn [values_equal]; eauto.
  - destruct a, b; try discriminate; cbn [values_equal]; eauto.
    simpl in Ha, Hb. destruct Ha as (m & x & p & Ha). destruct Hb as (m' & y & p' & Hb).
    simpl. rewrite Ha, Hb. eauto.
Qed.

Lemma values_equal_refl_L h v :
  live h v -> (forall x, v = VFloat x -> f_isnan x = false) -> values_equal h v v = Ok true.
Proof.
  intros Hl Hn. destruct (strval v) eqn:Sv.
  - rewrite values_equal_strings by assumption.
    destruct (str_content_live h v Hl Sv) as (s & ->). f_equal. apply str_equal_spec. auto.
  - destruct v; try discriminate; cbn [values_equal]; try reflexivity.
    + rewrite Bool.eqb_reflx. reflexivity.
    + rewrite Z.eqb_refl. reflexivity.
    + rewrite feqb_refl; [reflexivity|auto].
    + simpl in Hl. destruct Hl as (m & a & p & Hl). simpl. rewrite Hl. rewrite Z.eqb_refl. reflexivity.
    + rewrite Z.eqb_refl. reflexivity.
    + rewrite Nat.eqb_refl. reflexivity.
Qed.

(** The library's equality is sameness, when no string contains a NUL. *)
Lemma text_of_value_strval h v s : text_of_value h v s -> strval v = true.
Proof. intros []; reflexivity. Qed.

Lemma text_of_value_fun h v s t : text_of_value h v s -> text_of_value h v t -> s = t.
Proof. intros H1 H2. inversion H1; subst; inversion H2; subst; congruence. Qed.

Lemma text_of_value_content h v s : text_of_value h v s -> nul_free s -> str_content h v = Ok (Some s).
Proof.
  intros H Hn. inversion H as [s' E|id m s' E]; subst; simpl.
  - rewrite until_nul_free by assumption. reflexivity.
  - rewrite E. reflexivity.
Qed.

Lemma live_text h v : live h v -> strval v = true -> exists s, text_of_value h v s.
Proof.
  destruct v; try discriminate; simpl; intros H _.
  - destruct H as (m & s & H). exists s. econstructor; eauto.
  - exists s. constructor.
Qed.

Lemma values_equal_same_L h a b :
  live h a -> live h b ->
  (forall s, text_of_value h a s -> nul_free s) ->
  (forall s, text_of_value h b s -> nul_free s) ->
  values_equal h a b = Ok true <-> same_value h a b.
Proof.
  intros La Lb Na Nb. split.
  - intros H. pose proof (values_equal_strval _ _ _ H) as S. destruct (strval a) eqn:Sa.
    + symmetry in S. rewrite values_equal_strings in H by assumption.
      destruct (live_text h a La Sa) as (s & Ts). destruct (live_text h b Lb S) as (t & Tt).
      rewrite (text_of_value_content h a s Ts (Na s Ts)) in H.
      rewrite (text_of_value_content h b t Tt (Nb t Tt)) in H.
      injection H as H. apply str_equal_spec in H as [_ H].
      rewrite !until_nul_free in H by auto. subst t. econstructor 5; eauto.
    + destruct a, b; cbn [values_equal strval] in *; try discriminate.
      * constructor.
      * injection H as H. apply Bool.eqb_prop in H. subst. constructor.
      * injection H as H. apply Z.eqb_eq in H. subst. constructor.
      * injection H as H. constructor. exact H.
      * simpl in La, Lb. destruct La as (m & x & p & La). destruct Lb as (m' & y & p' & Lb).
        simpl in H. rewrite La, Lb in H. injection H as H. apply Z.eqb_eq in H. subst y.
        eapply same_native; eauto.
      * injection H as H. apply Z.eqb_eq in H. subst. constructor.
      * injection H as H. apply Nat.eqb_eq in H. subst. constructor.
  - intros H. destruct H; cbn [values_equal].
    + reflexivity.
    + rewrite Bool.eqb_reflx. reflexivity.
    + rewrite Z.eqb_refl. reflexivity.
    + rewrite H. reflexivity.
    + rewrite values_equal_strings by (eapply text_of_value_strval; eauto).
      rewrite (text_of_value_content h a s), (text_of_value_content h b s) by auto.
      f_equal. apply str_equal_spec. auto.
    + simpl. rewrite H, H0. rewrite Z.eqb_refl. reflexivity.
    + rewrite Z.eqb_refl. reflexivity.
    + rewrite Nat.eqb_refl. reflexivity.
Qed.

Lemma hash_bytes_until s : forall acc, hash_bytes acc s = hash_bytes acc (until_nul s).
Proof.
  induction s as [|c s IH]; intros acc; simpl; [reflexivity|].
  destruct (Ascii.eqb c "000") eqn:E; simpl; [reflexivity|]. rewrite E. apply IH.
Qed.

Lemma hash_respects_L place h a b :
  values_equal h a b = Ok true -> hash_value place h a = hash_value place h b.
Proof.
  intros H. pose proof (values_equal_strval _ _ _ H) as S. destruct (strval a) eqn:Sa.
  - symmetry in S. rewrite values_equal_strings in H by assumption.
    assert (Ea : hash_value place h a =
                 match str_content h a with Ok (Some s) => Ok (hash_bytes 5381 s) | _ => UB end)
      by (destruct a; try discriminate; reflexivity).
    assert (Eb : hash_value place h b =
                 match str_content h b with Ok (Some s) => Ok (hash_bytes 5381 s) | _ => UB end)
      by (destruct b; try discriminate; reflexivity).
    rewrite Ea, Eb.
    destruct (str_content h a) as [[x|]| | |]; try discriminate.
    destruct (str_content h b) as [[y|]| | |]; try discriminate.
    injection H as H. apply str_equal_spec in H as [_ H]. f_equal.
    rewrite (hash_bytes_until x), (hash_bytes_until y), H. reflexivity.
  - destruct a, b; cbn [values_equal strval] in *; try discriminate; try reflexivity.
    + injection H as H. apply Bool.eqb_prop in H. subst. reflexivity.
    + injection H as H. apply Z.eqb_eq in H. subst. reflexivity.
    + cbn [hash_value]. destruct (to_addr h (VNative id)); try discriminate.
      destruct (to_addr h (VNative id0)); try discriminate.
      injection H as H. apply Z.eqb_eq in H. subst. reflexivity.
    + injection H as H. apply Z.eqb_eq in H. subst. reflexivity.
    + injection H as H. apply Nat.eqb_eq in H. subst. reflexivity.
Qed.
