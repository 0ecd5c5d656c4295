(** * The type checker and the typing rules: expressions *)
From Verif Require Import Base Token Values Syntax Symbols Resolve Typing TypingProofs.
Local Open Scope nat_scope.
Local Opaque assignable.

(** ** Operators and variables *)
Ltac kinds :=
  repeat match goal with
  | H : kind_of _ ?g = Some KBoolT |- _ => apply kind_bool in H; subst g
  | H : kind_of _ ?g = Some KIntT |- _ => apply kind_int in H; subst g
  | H : kind_of _ ?g = Some KFloatT |- _ => apply kind_float in H; subst g
  end.
Lemma numeric_number t g k x : kind_of t g = Some k -> numeric k = Some x -> number g /\ (x = true <-> g = GInt) /\ (x = false <-> g = GFloat).
Proof.
  intros K N. destruct k; cbn in N; try discriminate N; injection N as <-.
  - apply kind_int in K. subst g. split; [constructor|]. split; split; congruence.
  - apply kind_float in K. subst g. split; [constructor|]. split; split; congruence.
Qed.
Lemma number_numeric t g : number g -> exists k x, kind_of t g = Some k /\ numeric k = Some x /\ (x = true <-> g = GInt).
Proof. intros []; [exists KIntT, true|exists KFloatT, false]; repeat split; auto; discriminate. Qed.
Lemma binary_sound t o a b ka kb g : kind_of t a = Some ka -> kind_of t b = Some kb -> bin_tag o ka kb = Some g -> binary t o a b g.
Proof.
  intros A B E.
  assert (Ar : In o [BAdd; BSub; BMul; BDiv] -> match numeric ka, numeric kb with Some x, Some y => Some (if x && y then GInt else GFloat) | _, _ => None end = Some g -> binary t o a b g).
  { intros I Q. destruct (numeric ka) as [x|] eqn:Na; [|discriminate]. destruct (numeric kb) as [y|] eqn:Nb; [|discriminate]. injection Q as <-.
    destruct (numeric_number _ _ _ _ A Na) as (Ma & Ta & Fa). destruct (numeric_number _ _ _ _ B Nb) as (Mb & Tb & Fb).
    destruct x; [destruct y|]; cbn [andb].
    - rewrite (proj1 Ta eq_refl), (proj1 Tb eq_refl). apply bi_int, I.
    - apply bi_float; auto. right. apply Fb. reflexivity.
    - apply bi_float; auto. left. apply Fa. reflexivity. }
  assert (Bi : In o [BAnd; BOr; BMod; BShl; BShr] -> match ka, kb with KIntT, KIntT => Some GInt | _, _ => None end = Some g -> binary t o a b g).
  { intros I Q. destruct ka; try discriminate Q; destruct kb; try discriminate Q. kinds. injection Q as <-. apply bi_bits, I. }
  assert (Lo : In o [BLand; BLor] -> match ka, kb with KBoolT, KBoolT => Some GBool | _, _ => None end = Some g -> binary t o a b g).
  { intros I Q. destruct ka; try discriminate Q; destruct kb; try discriminate Q. kinds. injection Q as <-. apply bi_logic, I. }
  assert (Co : In o [BGt; BLt; BLte; BGte] -> match numeric ka, numeric kb with Some _, Some _ => Some GBool | _, _ => None end = Some g -> binary t o a b g).
  { intros I Q. destruct (numeric ka) as [x|] eqn:Na; [|discriminate]. destruct (numeric kb) as [y|] eqn:Nb; [|discriminate]. injection Q as <-.
    apply bi_compare; [exact I|eapply numeric_number; eauto|eapply numeric_number; eauto]. }
  assert (Eq : In o [BEq; BNe] -> match ka, kb with KVoid, _ | _, KVoid => None | _, _ => Some GBool end = Some g -> binary t o a b g).
  { intros I Q. assert (g = GBool /\ ka <> KVoid /\ kb <> KVoid) as (-> & Va & Vb) by (destruct ka, kb; try discriminate Q; injection Q as <-; repeat split; discriminate).
    apply bi_equal; [exact I|apply kind_is; eauto|apply kind_is; eauto| |]; intros ->; cbn in *; congruence. }
  destruct o; cbn [bin_tag] in E;
    first [apply Ar; [cbn; tauto|exact E]|apply Bi; [cbn; tauto|exact E]|apply Lo; [cbn; tauto|exact E]|apply Co; [cbn; tauto|exact E]|apply Eq; [cbn; tauto|exact E]].
Qed.
Lemma binary_complete t o a b g : binary t o a b g -> exists ka kb, kind_of t a = Some ka /\ kind_of t b = Some kb /\ bin_tag o ka kb = Some g.
Proof.
  intros [o' I|o' x y I Nx Ny Fl|o' I|o' I|o' x y I Nx Ny|o' x y I Tx Ty Vx Vy]; cbn [In] in I.
  - exists KIntT, KIntT. split; [reflexivity|]. split; [reflexivity|]. repeat (destruct I as [<-|I]; [reflexivity|]). destruct I.
  - destruct (number_numeric t _ Nx) as (ka & na & Ka & Na & Ta). destruct (number_numeric t _ Ny) as (kb & nb & Kb & Nb & Tb).
    exists ka, kb. split; [exact Ka|]. split; [exact Kb|].
    assert (Q : na && nb = false). { destruct na, nb; auto. destruct Fl as [->| ->]; [discriminate (proj1 Ta eq_refl)|discriminate (proj1 Tb eq_refl)]. }
    repeat (destruct I as [<-|I]; [cbn [bin_tag]; rewrite Na, Nb, Q; reflexivity|]). destruct I.
  - exists KIntT, KIntT. split; [reflexivity|]. split; [reflexivity|]. repeat (destruct I as [<-|I]; [reflexivity|]). destruct I.
  - exists KBoolT, KBoolT. split; [reflexivity|]. split; [reflexivity|]. repeat (destruct I as [<-|I]; [reflexivity|]). destruct I.
  - destruct (number_numeric t _ Nx) as (ka & na & Ka & Na & Ta). destruct (number_numeric t _ Ny) as (kb & nb & Kb & Nb & Tb).
    exists ka, kb. split; [exact Ka|]. split; [exact Kb|].
    repeat (destruct I as [<-|I]; [cbn [bin_tag]; rewrite Na, Nb; reflexivity|]). destruct I.
  - apply kind_is in Tx as (ka & Ka). apply kind_is in Ty as (kb & Kb). exists ka, kb. split; [exact Ka|]. split; [exact Kb|].
    assert (ka <> KVoid) by (intros ->; apply kind_void in Ka; contradiction).
    assert (kb <> KVoid) by (intros ->; apply kind_void in Kb; contradiction).
    repeat (destruct I as [<-|I]; [cbn [bin_tag]; destruct ka, kb; congruence|]). destruct I.
Qed.
Lemma unary_iff t o a g : unary o a g <-> exists k, kind_of t a = Some k /\ un_tag o k = Some g.
Proof.
  split.
  - intros []; eexists; split; reflexivity.
  - intros (k & K & E). destruct o, k; cbn in E; try discriminate E; injection E as <-; kinds; constructor.
Qed.
Lemma var_iff t r g : var_type t r g <-> ref_tag t r = Some g.
Proof.
  split.
  - intros [id nm i b g' D|id nm b D|id nm b D|id nm b D|id nm b D|f nm n a l rt i v g' D N E|f nm n a l rt i v g' D N E];
      apply denotes_at in D; cbn; rewrite D; auto; rewrite N; exact E.
  - destruct r as [id|id|f i|f i]; cbn.
    + destruct (sym_at t id) as [[? ? []]|] eqn:F; try discriminate. intros ->. pose proof (sym_at_id _ _ _ F) as Q. injection Q as ->. apply denotes_at in F. econstructor. exact F.
    + destruct (sym_at t id) as [[? ? []]|] eqn:F; try discriminate. pose proof (sym_at_id _ _ _ F) as Q. injection Q as ->. apply denotes_at in F.
      destruct c; intros [= <-]; econstructor; exact F.
    + destruct (sym_at t f) as [[? ? []]|] eqn:F; try discriminate. pose proof (sym_at_id _ _ _ F) as Q. injection Q as ->. apply denotes_at in F.
      destruct (nth_error locals i) as [v|] eqn:N; [|discriminate]. intros E. eapply vt_local; eauto.
    + destruct (sym_at t f) as [[? ? []]|] eqn:F; try discriminate. pose proof (sym_at_id _ _ _ F) as Q. injection Q as ->. apply denotes_at in F.
      destruct (nth_error args i) as [v|] eqn:N; [|discriminate]. intros E. eapply vt_arg; eauto.
Qed.
Lemma signature_iff b ps va g : signature b ps va g <-> sig_of b = Some (ps, va, Some g).
Proof.
  split; [intros []; reflexivity|]. destruct b; cbn; try discriminate; intros [= <- <- E]; subst; constructor.
Qed.

(** ** Expressions *)
Lemma bind_ok {S A B} (m : S -> cres S A) (f : A -> S -> cres S B) s b s' : cbind m f s = COk b s' <-> exists a s1, m s = COk a s1 /\ f a s1 = COk b s'.
Proof.
  unfold cbind. split.
  - destruct (m s); try discriminate. eauto.
  - intros (a & s1 & -> & E). exact E.
Qed.
Lemma kindm_ok g t k t' : kindm g t = COk k t' <-> t' = t /\ kind_of t g = Some k.
Proof. unfold kindm. destruct (kind_of t g); split; try discriminate; [intros [= -> ->]; auto|intros (-> & [= ->]); reflexivity|intros (_ & Q); discriminate]. Qed.
Lemma ub_ok {S A} (o : option A) (s : S) a s' : or_ub o s = COk a s' <-> s' = s /\ o = Some a.
Proof. unfold or_ub. destruct o; split; try discriminate; [intros [= -> ->]; auto|intros (-> & [= ->]); reflexivity|intros (_ & Q); discriminate]. Qed.
Lemma fail_ok {S A} (o : option A) (s : S) a s' : or_fail o s = COk a s' <-> s' = s /\ o = Some a.
Proof. unfold or_fail. destruct o; split; try discriminate; [intros [= -> ->]; auto|intros (-> & [= ->]); reflexivity|intros (_ & Q); discriminate]. Qed.
Lemma check_ok src dest t u t' : check_assignable src dest t = COk u t' <-> t' = t /\ assigns t src dest.
Proof. split; [apply check_same|]. intros (-> & A). destruct u. apply assigns_iff, A. Qed.

Definition exact_for (e : expr) : Prop := forall t te t', resolve e t = COk te t' <-> t' = t /\ types t e te.
Lemma args_iff args : Forall exact_for args -> forall ps va t tes t',
  resolve_args resolve ps va args t = COk tes t' <-> t' = t /\ arguments t ps va args tes.
Proof.
  induction 1 as [|a args Ea F IH]; intros ps va t tes t'; cbn [resolve_args].
  - unfold cret. split; [intros [= <- <-]; split; [reflexivity|constructor]|intros (-> & A); inversion A; reflexivity].
  - rewrite bind_ok. split.
    + intros (e & t1 & E & E'). apply Ea in E as (-> & T). destruct ps as [|p ps].
      * destruct va; [|discriminate E']. apply bind_ok in E' as (es & t1 & E1 & E2). apply IH in E1 as (-> & A). injection E2 as <- <-. split; [reflexivity|]. constructor; auto.
      * apply bind_ok in E' as (g & t1 & E1 & E2). apply ub_ok in E1 as (-> & ->). apply bind_ok in E2 as (u & t1 & E1 & E2). apply check_ok in E1 as (-> & As).
        apply bind_ok in E2 as (es & t1 & E1 & E2). apply IH in E1 as (-> & A). injection E2 as <- <-. split; [reflexivity|]. constructor; auto.
    + intros (-> & A). inversion A; subst.
      * exists te, t. split; [apply Ea; auto|]. apply bind_ok. exists p, t. split; [reflexivity|]. apply bind_ok. exists tt, t. split; [apply check_ok; auto|].
        apply bind_ok. exists tes0, t. split; [apply IH; auto|reflexivity].
      * exists te, t. split; [apply Ea; auto|]. apply bind_ok. exists tes0, t. split; [apply IH; auto|reflexivity].
Qed.
Lemma inits_pos id nm d fs t : denotes t id nm (SyStruct d fs) -> forall args, Forall exact_for args -> forall i tes t',
  resolve_inits resolve id false [] i args t = COk tes t' <-> t' = t /\ arguments t (map (fun f => Some (fd_tag f)) (skipn i fs)) false args tes.
Proof.
  intros D. apply denotes_at in D. induction 1 as [|a args Ea F IH]; intros i tes t'; cbn [resolve_inits].
  - unfold cret. split; [intros [= <- <-]; split; [reflexivity|constructor]|intros (-> & A); inversion A; reflexivity].
  - rewrite bind_ok. split.
    + intros (e & t1 & E & E'). apply Ea in E as (-> & T). apply bind_ok in E' as (t1 & t2 & [= <- <-] & E'). rewrite D in E'. cbn [andb] in E'.
      destruct (length fs <=? i) eqn:L; [discriminate E'|]. apply Nat.leb_gt in L.
      destruct (nth_error fs i) as [f|] eqn:N; [|apply nth_error_None in N; lia].
      apply bind_ok in E' as (u & t1 & E1 & E2). apply check_ok in E1 as (-> & As).
      apply bind_ok in E2 as (es & t1 & E1 & E2). apply IH in E1 as (-> & A). injection E2 as <- <-. split; [reflexivity|].
      assert (Sk : skipn i fs = f :: skipn (S i) fs).
      { clear -N. revert i N. induction fs as [|x fs IH]; intros [|i] N; cbn in *; try discriminate; [congruence|]. rewrite (IH _ N). destruct fs; reflexivity. }
      rewrite Sk. cbn [map]. constructor; auto.
    + intros (-> & A). assert (L : i < length fs). { apply Nat.lt_nge. intros L. rewrite skipn_all2 in A by exact L. inversion A. }
      assert (Sk : exists f, nth_error fs i = Some f /\ skipn i fs = f :: skipn (S i) fs).
      { clear -L. revert i L. induction fs as [|x fs IH]; intros [|i] L; cbn in *; try lia; [eauto|]. destruct (IH i) as (f & N & E); [lia|]. exists f. split; auto. }
      destruct Sk as (f & N & Sk). rewrite Sk in A. cbn [map] in A. inversion A; subst.
      exists te, t. split; [apply Ea; auto|]. apply bind_ok. exists t, t. split; [reflexivity|]. rewrite D. cbn [andb].
      rewrite (proj2 (Nat.leb_gt _ _) L). rewrite N. apply bind_ok. exists tt, t. split; [apply check_ok; auto|].
      apply bind_ok. exists tes0, t. split; [apply IH; auto|reflexivity].
Qed.
Lemma inits_named id nm d fs t : denotes t id nm (SyStruct d fs) -> forall args, Forall exact_for args -> forall names i tes t',
  resolve_inits resolve id true names i args t = COk tes t' <-> t' = t /\ (i + length args <= length fs \/ args = []) /\ designated t fs names args tes.
Proof.
  intros D. apply denotes_at in D. induction 1 as [|a args Ea F IH]; intros names i tes t'; cbn [resolve_inits].
  - unfold cret. split; [intros [= <- <-]; split; [reflexivity|split; [auto|constructor]]|intros (-> & _ & A); inversion A; reflexivity].
  - rewrite bind_ok. split.
    + intros (e & t1 & E & E'). apply Ea in E as (-> & T). apply bind_ok in E' as (t1 & t2 & [= <- <-] & E'). rewrite D in E'. cbn [andb] in E'.
      destruct names as [|name names]; [discriminate E'|].
      destruct (length fs <=? i) eqn:L; [discriminate E'|]. apply Nat.leb_gt in L.
      destruct (field_index fs name) as [[k g]|] eqn:N; [|discriminate E'].
      apply bind_ok in E' as (u & t1 & E1 & E2). apply check_ok in E1 as (-> & As). cbn [tl] in E2.
      apply bind_ok in E2 as (es & t1 & E1 & E2). apply IH in E1 as (-> & Q & A). injection E2 as <- <-. split; [reflexivity|]. split.
      * left. cbn [length]. destruct Q as [Q| ->]; cbn [length]; lia.
      * eapply de_field; eauto. apply field_at. eauto.
    + intros (-> & Q & A). destruct Q as [Q|Q]; [|discriminate Q]. cbn [length] in Q. inversion A; subst.
      exists te, t. split; [apply Ea; auto|]. apply bind_ok. exists t, t. split; [reflexivity|]. rewrite D. cbn [andb].
      rewrite (proj2 (Nat.leb_gt (length fs) i)) by lia. match goal with H : field_named _ _ _ |- _ => apply field_at in H as (k & Fi) end. rewrite Fi.
      apply bind_ok. exists tt, t. split; [apply check_ok; auto|]. cbn [tl].
      apply bind_ok. exists tes0, t. split; [apply IH; split; [reflexivity|]; split; [left; lia|assumption]|reflexivity].
Qed.

Lemma setter_iff t nm o : setter_of t nm o <-> o = option_map sy_id (reference_function t (index_name nm (text_of "_set_index"))).
Proof.
  split.
  - intros [s F|F]; [apply function_at in F|apply no_function_at in F]; unfold setter in F; unfold index_name; rewrite F; reflexivity.
  - intros ->. destruct (reference_function _ _) as [s|] eqn:F; cbn [option_map].
    + apply so_some. apply function_at. exact F.
    + apply so_none. apply no_function_at. exact F.
Qed.
Lemma same_any k : same_kind k KAny = true <-> k = KAny.
Proof. destruct k; cbn; split; congruence. Qed.
Lemma same_bool k : same_kind k KBoolT = true <-> k = KBoolT.
Proof. destruct k; cbn; split; congruence. Qed.
Lemma same_void k : same_kind k KVoid = true <-> k = KVoid.
Proof. destruct k; cbn; split; congruence. Qed.

Ltac bo H a s H1 H2 := apply bind_ok in H as (a & s & H1 & H2).
Lemma resolve_iff e : exact_for e.
Proof.
  unfold exact_for. induction e as [|b|z|z|z|i|nm r|f args IHa|o l r IHl IHr|o e IHe|e IHe|id names args IHa|e g IHe|e f IHe|a i IHa IHi|c a b IHc IHa IHb] using expr_ind';
    intros t te t'; cbn [resolve].
  - unfold cret. split; [intros [= <- <-]; split; [reflexivity|constructor]|intros (-> & A); inversion A; reflexivity].
  - unfold cret. split; [intros [= <- <-]; split; [reflexivity|constructor]|intros (-> & A); inversion A; reflexivity].
  - unfold cret. split; [intros [= <- <-]; split; [reflexivity|constructor]|intros (-> & A); inversion A; reflexivity].
  - unfold cret. split; [intros [= <- <-]; split; [reflexivity|constructor]|intros (-> & A); inversion A; reflexivity].
  - unfold cret. split; [intros [= <- <-]; split; [reflexivity|constructor]|intros (-> & A); inversion A; reflexivity].
  - unfold cret. split; [intros [= <- <-]; split; [reflexivity|constructor]|intros (-> & A); inversion A; reflexivity].
  - destruct r as [r|]; [|split; [discriminate|intros (_ & A); inversion A]]. split.
    + intros E. bo E t1 t2 E1 E. injection E1 as <- <-. bo E g t1 E1 E. apply ub_ok in E1 as (-> & V). injection E as <- <-. split; [reflexivity|]. constructor. apply var_iff, V.
    + intros (-> & A). inversion A; subst. match goal with H : var_type _ _ _ |- _ => apply var_iff in H as V end. apply bind_ok. exists t, t. split; [reflexivity|].
      apply bind_ok. exists g, t. split; [apply ub_ok; auto|reflexivity].
  - split.
    + intros E. bo E t1 t2 E1 E. injection E1 as <- <-. destruct (reference_function t f) as [s|] eqn:R; [|discriminate E].
      bo E x t1 E1 E. apply ub_ok in E1 as (-> & Sg). destruct x as [[ps va] ret]. bo E es t1 E1 E. apply (args_iff _ IHa) in E1 as (-> & A).
      bo E g t1 E1 E. apply ub_ok in E1 as (-> & ->). injection E as <- <-. split; [reflexivity|].
      eapply ty_ecall; [apply function_at; exact R|apply signature_iff; exact Sg|exact A].
    + intros (-> & A). inversion A; subst. match goal with H : function_named _ _ _ |- _ => apply function_at in H as R end. match goal with H : signature _ _ _ _ |- _ => apply signature_iff in H as Sg end.
      apply bind_ok. exists t, t. split; [reflexivity|]. rewrite R. apply bind_ok. exists (params, va, Some g), t. split; [apply ub_ok; auto|].
      apply bind_ok. exists tes, t. split; [apply (args_iff _ IHa); auto|]. apply bind_ok. exists g, t. split; reflexivity.
  - split.
    + intros E. bo E l' t1 E1 E. apply IHl in E1 as (-> & Tl). bo E r' t1 E1 E. apply IHr in E1 as (-> & Tr).
      bo E kl t1 E1 E. apply kindm_ok in E1 as (-> & Kl). bo E kr t1 E1 E. apply kindm_ok in E1 as (-> & Kr).
      bo E g t1 E1 E. apply fail_ok in E1 as (-> & B). injection E as <- <-. split; [reflexivity|]. constructor; auto. eapply binary_sound; eauto.
    + intros (-> & A). inversion A; subst. match goal with H : binary _ _ _ _ _ |- _ => destruct (binary_complete _ _ _ _ _ H) as (ka & kb & Ka & Kb & Q) end.
      apply bind_ok. exists tl, t. split; [apply IHl; auto|]. apply bind_ok. exists tr, t. split; [apply IHr; auto|].
      apply bind_ok. exists ka, t. split; [apply kindm_ok; auto|]. apply bind_ok. exists kb, t. split; [apply kindm_ok; auto|].
      apply bind_ok. exists g, t. split; [apply fail_ok; auto|reflexivity].
  - split.
    + intros E. bo E e' t1 E1 E. apply IHe in E1 as (-> & Te). bo E k t1 E1 E. apply kindm_ok in E1 as (-> & K).
      bo E g t1 E1 E. apply fail_ok in E1 as (-> & B). injection E as <- <-. split; [reflexivity|]. constructor; auto. apply (unary_iff t). eauto.
    + intros (-> & A). inversion A; subst. match goal with H : unary _ _ _ |- _ => apply (unary_iff t) in H as (k & K & Q) end.
      apply bind_ok. exists te0, t. split; [apply IHe; auto|]. apply bind_ok. exists k, t. split; [apply kindm_ok; auto|].
      apply bind_ok. exists g, t. split; [apply fail_ok; auto|reflexivity].
  - split.
    + intros E. bo E e' t1 E1 E. apply IHe in E1 as (-> & Te). injection E as <- <-. split; [reflexivity|]. constructor; auto.
    + intros (-> & A). inversion A; subst. apply bind_ok. exists te0, t. split; [apply IHe; auto|reflexivity].
  - split.
    + intros E. bo E t1 t2 E1 E. injection E1 as <- <-. destruct (sym_at t id) as [[id' nm b]|] eqn:F; [|discriminate E].
      pose proof (sym_at_id _ _ _ F) as Q. injection Q as ->. apply denotes_at in F. destruct b as [| | | |d fs| | |]; try discriminate E. destruct d; [|discriminate E].
      bo E es t1 E1 E. destruct names as [|name names].
      * apply (inits_pos _ _ _ _ _ F _ IHa) in E1 as (-> & A). injection E as <- <-. split; [reflexivity|]. eapply ty_enew; eauto.
      * apply (inits_named _ _ _ _ _ F _ IHa) in E1 as (-> & L & A). injection E as <- <-. split; [reflexivity|]. eapply ty_enamed; eauto; [discriminate|].
        destruct L as [L| ->]; cbn in *; lia.
    + intros (-> & A). inversion A; subst.
      * match goal with H : denotes _ _ _ _ |- _ => pose proof H as D; apply denotes_at in H as F end. apply bind_ok. exists t, t. split; [reflexivity|]. rewrite F.
        apply bind_ok. exists tes, t. split; [apply (inits_pos _ _ _ _ _ D _ IHa); auto|reflexivity].
      * match goal with H : denotes _ _ _ _ |- _ => pose proof H as D; apply denotes_at in H as F end. apply bind_ok. exists t, t. split; [reflexivity|]. rewrite F.
        destruct names as [|nm1 names]; [congruence|]. apply bind_ok. exists tes, t. split; [apply (inits_named _ _ _ _ _ D _ IHa); auto|reflexivity].
  - split.
    + intros E. bo E e' t1 E1 E. apply IHe in E1 as (-> & Te). bo E k t1 E1 E. apply kindm_ok in E1 as (-> & K). bo E kg t1 E1 E. apply kindm_ok in E1 as (-> & Kg).
      destruct (same_kind k KAny || same_kind kg KAny) eqn:Q; [|discriminate E]. injection E as <- <-. split; [reflexivity|].
      constructor; auto; [apply kind_is; eauto|apply kind_is; eauto|]. apply orb_true_iff in Q as [Q|Q]; apply same_any in Q; subst; [left|right]; eapply kind_any; eauto.
    + intros (-> & A). inversion A; subst.
      match goal with H : is_type _ g |- _ => apply kind_is in H as (kg & Kg) end. match goal with H : is_type _ (tag_of _) |- _ => apply kind_is in H as (k & K) end.
      apply bind_ok. exists te0, t. split; [apply IHe; auto|]. apply bind_ok. exists k, t. split; [apply kindm_ok; auto|]. apply bind_ok. exists kg, t. split; [apply kindm_ok; auto|].
      replace (same_kind k KAny || same_kind kg KAny) with true; [reflexivity|]. symmetry. apply orb_true_iff.
      match goal with H : _ \/ _ |- _ => destruct H as [Q| ->] end; [left|right]; apply same_any; [rewrite Q in K; injection K as <-|injection Kg as <-]; reflexivity.
  - split.
    + intros E. bo E e' t1 E1 E. apply IHe in E1 as (-> & Te). bo E k t1 E1 E. apply kindm_ok in E1 as (-> & K).
      destruct (match k with KStruct => true | _ => false end) eqn:Ks; [|destruct k; try discriminate; destruct (tag_of e'); discriminate E].
      destruct k; try discriminate Ks. apply kind_struct in K as (id & nm & d & fs & G & D). rewrite G in E. bo E t1 t2 E1 E. injection E1 as <- <-.
      pose proof (proj1 (denotes_at _ _ _ _) D) as F. rewrite F in E. bo E x t1 E1 E. apply fail_ok in E1 as (-> & Fi). destruct x as [ix g]. injection E as <- <-. split; [reflexivity|].
      eapply ty_edot; eauto. apply field_at. eauto.
    + intros (-> & A). inversion A; subst. match goal with H : denotes _ _ _ _ |- _ => pose proof H as D; apply denotes_at in H as F end. match goal with H : field_named _ _ _ |- _ => apply field_at in H as (ix & Fi) end.
      apply bind_ok. exists te0, t. split; [apply IHe; auto|]. match goal with H : tag_of te0 = _ |- _ => rename H into G end.
      apply bind_ok. exists KStruct, t. split; [apply kindm_ok; split; [reflexivity|]; apply kind_struct; eauto 10|].
      rewrite G. apply bind_ok. exists t, t. split; [reflexivity|]. rewrite F. apply bind_ok. exists (ix, g), t. split; [apply fail_ok; auto|reflexivity].
  - split.
    + intros E. bo E a' t1 E1 E. apply IHa in E1 as (-> & Ta). bo E i' t1 E1 E. apply IHi in E1 as (-> & Ti). bo E t1 t2 E1 E. injection E1 as <- <-.
      bo E nm t1 E1 E. apply ub_ok in E1 as (-> & N). destruct (reference_function t (index_name nm (text_of "_get_index"))) as [gf|] eqn:R; [|discriminate E].
      bo E x t1 E1 E. apply ub_ok in E1 as (-> & Sg). destruct x as [[ps va] ret]. bo E g t1 E1 E. apply ub_ok in E1 as (-> & ->). injection E as <- <-. split; [reflexivity|].
      eapply ty_eindex; [exact Ta|exact Ti|apply name_at; exact N|apply function_at; exact R|apply signature_iff; exact Sg|apply setter_iff; reflexivity].
    + intros (-> & A). inversion A; subst. match goal with H : function_named _ _ _ |- _ => apply function_at in H as R end. match goal with H : signature _ _ _ _ |- _ => apply signature_iff in H as Sg end.
      match goal with H : setter_of _ _ _ |- _ => apply setter_iff in H as So end. match goal with H : type_name _ _ _ |- _ => apply name_at in H as N end. subst set.
      apply bind_ok. exists ta, t. split; [apply IHa; auto|]. apply bind_ok. exists ti, t. split; [apply IHi; auto|]. apply bind_ok. exists t, t. split; [reflexivity|].
      apply bind_ok. exists name, t. split; [apply ub_ok; auto|]. unfold getter in R. unfold index_name at 1. rewrite R.
      apply bind_ok. exists (params, va, Some g), t. split; [apply ub_ok; auto|]. apply bind_ok. exists g, t. split; reflexivity.
  - split.
    + intros E. bo E c' t1 E1 E. apply IHc in E1 as (-> & Tc). bo E k t1 E1 E. apply kindm_ok in E1 as (-> & K). destruct (same_kind k KBoolT) eqn:Q; [|discriminate E].
      apply same_bool in Q. subst k. apply kind_bool in K. bo E a' t1 E1 E. apply IHa in E1 as (-> & Ta). bo E b' t1 E1 E. apply IHb in E1 as (-> & Tb).
      destruct (tag_eq_dec (tag_of a') (tag_of b')) as [Q|]; [|discriminate E]. injection E as <- <-. split; [reflexivity|]. constructor; auto.
    + intros (-> & A). inversion A; subst. apply bind_ok. exists tc, t. split; [apply IHc; auto|].
      apply bind_ok. exists KBoolT, t. split; [apply kindm_ok; split; [reflexivity|]; apply kind_bool; assumption|]. cbn [same_kind].
      apply bind_ok. exists ta, t. split; [apply IHa; auto|]. apply bind_ok. exists tb, t. split; [apply IHb; auto|].
      destruct (tag_eq_dec (tag_of ta) (tag_of tb)); [reflexivity|contradiction].
Qed.
