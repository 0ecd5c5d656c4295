(** * The type checker always answers *)
From Verif Require Import Base Token Lexer Values Strings Syntax Symbols Code Parser Resolve Compile Layout CompileProofs TableInv ParserInv ResolveInv Host HostInv TagTable TagParse TagResolve.
From Verif Require Import Grammar GrammarStmt Settled SettledParse Answer.
Local Open Scope nat_scope.

Lemma mentioned_urefs e : mentioned e = urefs e.
Proof.
  induction e using expr_ind'; cbn [mentioned urefs]; auto; try congruence.
  all: induction H as [|z l Hz _ IH]; cbn; congruence.
Qed.

Lemma assignable_null m t a b g ka : kind_of t a = Some ka -> kind_of t b = Some (KNullable g) ->
  assignable (S m) t a b = match ka with KVoid | KAny => Some false | _ => assignable m t a g end.
Proof. intros Ka Kb. cbn [assignable]. rewrite Ka, Kb. destruct ka; reflexivity. Qed.
Lemma cb_ok {S A B} (m : S -> cres S A) (k : A -> S -> cres S B) s a s' : m s = COk a s' -> cbind m k s = k a s'.
Proof. unfold cbind. intros ->. reflexivity. Qed.
Lemma cb_fail {S A B} (m : S -> cres S A) (k : A -> S -> cres S B) s s' : m s = CFail s' -> cbind m k s = CFail s'.
Proof. unfold cbind. intros ->. reflexivity. Qed.
Section Expr.
Variables (t : tbl) (D : list vref).
Hypothesis I : inv t D None.
Definition lives (e : expr) : Prop := forall te t', resolve e t = COk te t' -> t' = t /\ live t (tag_of te).

Lemma fun_ret y params va ret : In y (tb_syms t) -> sig_of (sy_body y) = Some (params, va, ret) ->
  (forall p, In p params -> exists g, p = Some g /\ live t g) /\ exists g, ret = Some g /\ live t g.
Proof.
  intros J Sg. pose proof (proj2 I _ _ (in_sym_at _ _ (td_unique _ (proj1 I)) J)) as B. destruct y as [i n b]. cbn in *. destruct b; try discriminate; injection Sg as <- <- <-.
  - destruct B as (A & _ & C). split.
    + intros p Jp. apply in_map_iff in Jp as (v & <- & Jv). apply In_nth_error in Jv as (k & Jv). eapply A; eauto.
    + destruct ret0; [eauto|discriminate].
  - destruct B as (A & C). split; [|eauto]. intros p Jp. apply in_map_iff in Jp as (g & <- & Jg). rewrite Forall_forall in A. eauto.
Qed.
Lemma ref_live r g : ref_tag t r = Some g -> live t g.
Proof.
  rewrite ref_vtag. unfold vtag. destruct (sym_at t (ref_sym r)) as [[i n b]|] eqn:Y; try discriminate. pose proof (proj2 I _ _ Y) as B. cbn [sy_body] in *.
  destruct r as [id|id|f k|f k]; destruct b; cbn in *; try discriminate.
  - intros [= ->]. exact B.
  - intros [= <-]. destruct c; cbn; eexists; reflexivity.
  - destruct B as (_ & B & _). destruct (nth_error locals k) as [v|] eqn:V; try discriminate. cbn. intros [= E]. specialize (B _ _ V). rewrite E in B. exact B.
  - destruct B as (B & _). destruct (nth_error args k) as [v|] eqn:V; try discriminate. cbn. intros [= E]. destruct (B _ _ V) as (h & Eh & L). congruence.
Qed.
Lemma field_live id y d fs f k g : sym_at t id = Some y -> sy_body y = SyStruct d fs -> field_index fs f = Some (k, g) -> live t g.
Proof.
  intros Y B F. pose proof (proj2 I _ _ Y) as X. rewrite B in X. cbn in X. unfold field_index in F. destruct (find_index _ _ _) as [i|]; try discriminate.
  destruct (nth_error fs i) as [fd|] eqn:N; try discriminate. injection F as _ <-. rewrite Forall_forall in X. apply X. eapply nth_error_In; eauto.
Qed.
Lemma bin_live o a b g : bin_tag o a b = Some g -> live t g.
Proof.
  intros E. destruct o; cbn in E; repeat match type of E with match ?x with _ => _ end = _ => destruct x; try discriminate end; injection E as <-;
    try (eexists; reflexivity); destruct (_ && _); eexists; reflexivity.
Qed.
Lemma un_live o a g : un_tag o a = Some g -> live t g.
Proof. intros E. destruct o, a; try discriminate; injection E as <-; eexists; reflexivity. Qed.

Lemma resolve_live e : lives e.
Proof.
  unfold lives. induction e using expr_ind'; intros te t' E; pose proof (proj1 (resolve_inv _ _ _ _ E)) as Et; (split; [exact Et|]); cbn [resolve] in E; clear Et.
  all: try (injection E as <- _; eexists; reflexivity).
  - destruct r as [r|]; [|discriminate]. repeat rstep E. cbn. eapply ref_live; eauto.
  - rstep E. destruct (reference_function t f) as [y|] eqn:F; [|discriminate]. apply find_some in F as (J & _).
    apply cbind_ok in E as ([[ps va] ret] & tx & Sg & E). apply or_ub_ok in Sg as (Sg & ->).
    destruct (fun_ret _ _ _ _ J Sg) as (_ & g & -> & L). apply cbind_ok in E as (es & t1 & _ & E). repeat rstep E. cbn. congruence.
  - apply cbind_ok in E as (l' & t1 & E1 & E). apply cbind_ok in E as (r' & t2 & E2 & E). repeat rstep E. cbn. eapply bin_live; eauto.
  - apply cbind_ok in E as (l' & t1 & E1 & E). repeat rstep E. cbn. eapply un_live; eauto.
  - apply cbind_ok in E as (l' & t1 & E1 & E). destruct (IHe _ _ E1) as (-> & L). rstep E. exact L.
  - rstep E. destruct (sym_at t t0) as [[i n [| | | |[]| | |]]|] eqn:Y; try discriminate. apply cbind_ok in E as (es & t1 & _ & E). rstep E. unfold live. cbn. rewrite Y. eexists; reflexivity.
  - apply cbind_ok in E as (l' & t1 & E1 & E). destruct (IHe _ _ E1) as (-> & L). apply cbind_ok in E as (k & t2 & E2 & E). apply cbind_ok in E as (kg & t3 & E3 & E).
    unfold kindm in E2, E3. destruct (kind_of t (tag_of l')); try discriminate. injection E2 as _ <-. destruct (kind_of t t0) eqn:K; try discriminate.
    destruct (_ || _); try discriminate. rstep E. cbn. eexists. exact K.
  - apply cbind_ok in E as (l' & t1 & E1 & E). destruct (IHe _ _ E1) as (-> & L). apply cbind_ok in E as (k & t2 & E2 & E).
    unfold kindm in E2. destruct (kind_of t (tag_of l')); try discriminate. injection E2 as <- <-. destruct t0; try discriminate. destruct (tag_of l'); try discriminate.
    rstep E. destruct (sym_at t id) as [[i n []]|] eqn:Y; try discriminate. destruct (field_index fields f) as [[k g]|] eqn:Fi; [|discriminate E].
    cbn in E. rstep E. cbn. eapply field_live; [exact Y|reflexivity|exact Fi].
  - apply cbind_ok in E as (l' & t1 & E1 & E). apply cbind_ok in E as (r' & t2 & E2 & E). destruct (IHe1 _ _ E1) as (-> & L1). destruct (IHe2 _ _ E2) as (-> & L2).
    rstep E. apply cbind_ok in E as (nm & t3 & E3 & E). unfold or_ub in E3. destruct (tag_name _ _); try discriminate. injection E3 as <- <-.
    destruct (reference_function t _) as [y|] eqn:F in E; [|discriminate]. apply find_some in F as (J & _).
    apply cbind_ok in E as ([[ps va] ret] & tx & Sg & E). apply or_ub_ok in Sg as (Sg & ->).
    destruct (fun_ret _ _ _ _ J Sg) as (_ & g & -> & L). repeat rstep E. cbn. congruence.
  - apply cbind_ok in E as (c' & t1 & E1 & E). destruct (IHe1 _ _ E1) as (-> & L1). apply cbind_ok in E as (k & t2 & E2 & E).
    unfold kindm in E2. destruct (kind_of t (tag_of c')); try discriminate. injection E2 as _ <-. destruct (same_kind _ _); try discriminate.
    apply cbind_ok in E as (a' & t1 & E2 & E). destruct (IHe2 _ _ E2) as (-> & L2). apply cbind_ok in E as (b' & t1 & E3 & E). destruct (IHe3 _ _ E3) as (-> & L3).
    destruct (tag_eq_dec _ _); try discriminate. rstep E. exact L2.
Qed.

(** ** Totality *)
Definition answers {A} (r : cres tbl A) : Prop := (exists a t', r = COk a t') \/ exists t', r = CFail t'.
Lemma tag_name_live g : live t g -> exists x, tag_name t g = Some x.
Proof. intros (k & E). destruct g; cbn in *; eauto. destruct (sym_at t id) as [y|]; try discriminate. cbn. eauto. Qed.
Lemma assignable_flat n a b : live t a -> flat t b -> exists x, assignable (S n) t a b = Some x.
Proof.
  intros La Fb. destruct (tag_name_live _ La) as (xa & Na). destruct (tag_name_live _ (flat_live _ _ Fb)) as (xb & Nb). destruct La as (ka & Ka), Fb as (kb & Kb & Nf).
  cbn [assignable]. rewrite Ka, Kb, Na, Nb. destruct ka; eauto; destruct kb; cbn; eauto; exfalso; eapply Nf; reflexivity.
Qed.
Lemma assignable_live n a b : live t a -> live t b -> exists x, assignable (S (S n)) t a b = Some x.
Proof.
  intros La Lb. destruct Lb as (kb & Kb). destruct kb as [| | | | | | | |g]; try (apply assignable_flat; [exact La|]; eexists; split; [exact Kb|discriminate]).
  assert (Fg : flat t g).
  { destruct b as [| | | | | |id]; cbn in Kb; try discriminate. destruct (sym_at t id) as [[i m bd]|] eqn:Y; try discriminate. pose proof (proj2 I _ _ Y) as B.
    cbn in B. destruct bd; try discriminate. injection Kb as <-. exact B. }
  destruct (assignable_flat n a g La Fg) as (x & X). destruct La as (ka & Ka). rewrite (assignable_null _ _ _ _ _ _ Ka Kb), X. destruct ka; eauto.
Qed.
Local Opaque assignable.
Lemma check_total a b : live t a -> live t b -> check_assignable a b t = COk tt t \/ check_assignable a b t = CFail t.
Proof. intros La Lb. unfold check_assignable. destruct (assignable_live (length (tb_syms t)) a b La Lb) as (x & X).
  change (2 + length (tb_syms t)) with (S (S (length (tb_syms t)))). rewrite X. destruct x; auto. Qed.
Lemma kindm_total g : live t g -> exists k, kindm g t = COk k t.
Proof. intros (k & E). exists k. unfold kindm. rewrite E. reflexivity. Qed.

Hypothesis Sd : forall id y d fs, sym_at t id = Some y -> sy_body y = SyStruct d fs -> d = true.
Definition total (e : expr) : Prop := Forall (knows t) (urefs e) -> ok_t t e -> answers (resolve e t).
Lemma sub_total e : answers (resolve e t) -> (exists te, resolve e t = COk te t /\ live t (tag_of te)) \/ exists t', resolve e t = CFail t'.
Proof. intros [(te & t' & E)|F]; [left|right; exact F]. destruct (resolve_live e _ _ E) as (-> & L). eauto. Qed.
Lemma ans_ok {A} (a : A) t' : answers (COk a t'). Proof. left. eauto. Qed.
Lemma ans_fail {A} t' : answers (@CFail _ A t'). Proof. right. eauto. Qed.

Lemma args_total args : Forall total args -> Forall (knows t) (flat_map urefs args) -> ok_ts t args -> forall params va,
  (forall p, In p params -> exists g, p = Some g /\ live t g) ->
  (exists es, resolve_args resolve params va args t = COk es t) \/ exists t', resolve_args resolve params va args t = CFail t'.
Proof.
  induction 1 as [|a args Ha _ IH]; intros Kn Ot params va Lp; cbn [resolve_args]; [left; eexists; reflexivity|].
  cbn in Kn. apply Forall_app in Kn as (K1 & K2). destruct Ot as (O1 & O2). specialize (IH K2 O2).
  destruct (sub_total _ (Ha K1 O1)) as [(e & E & L)|(t' & E)]; [rewrite (cb_ok _ _ _ _ _ E)|rewrite (cb_fail _ _ _ _ E); right; eauto].
  destruct params as [|p params].
  - destruct va; [|right; eexists; reflexivity]. destruct (IH [] true Lp) as [(es & E2)|(t' & E2)]; [rewrite (cb_ok _ _ _ _ _ E2); left|rewrite (cb_fail _ _ _ _ E2); right]; eexists; reflexivity.
  - destruct (Lp p (or_introl eq_refl)) as (g & -> & Lg). rewrite (cb_ok (or_ub (Some g)) _ t g t eq_refl).
    destruct (check_total _ _ L Lg) as [C|C]; [rewrite (cb_ok _ _ _ _ _ C)|rewrite (cb_fail _ _ _ _ C); right; eexists; reflexivity].
    destruct (IH params va (fun q Q => Lp q (or_intror Q))) as [(es & E2)|(t' & E2)]; [rewrite (cb_ok _ _ _ _ _ E2); left|rewrite (cb_fail _ _ _ _ E2); right]; eexists; reflexivity.
Qed.
Lemma inits_total id y d fs args : sym_at t id = Some y -> sy_body y = SyStruct d fs -> Forall total args -> Forall (knows t) (flat_map urefs args) -> ok_ts t args ->
  forall nmd names i,
  (exists es, resolve_inits resolve id nmd names i args t = COk es t) \/ exists t', resolve_inits resolve id nmd names i args t = CFail t'.
Proof.
  intros Y B. pose proof (proj2 I _ _ Y) as Lf. rewrite B in Lf. cbn in Lf. rewrite Forall_forall in Lf.
  induction 1 as [|a args Ha _ IH]; intros Kn Ot nmd names i; cbn [resolve_inits]; [left; eexists; reflexivity|].
  cbn in Kn. apply Forall_app in Kn as (K1 & K2). destruct Ot as (O1 & O2). specialize (IH K2 O2).
  destruct (sub_total _ (Ha K1 O1)) as [(e & E & L)|(t' & E)]; [rewrite (cb_ok _ _ _ _ _ E)|rewrite (cb_fail _ _ _ _ E); right; eauto].
  rewrite (cb_ok cget _ t t t eq_refl). rewrite Y. destruct y as [yi yn yb]. cbn in B. subst yb.
  destruct (nmd && _); [right; eexists; reflexivity|]. destruct (Nat.leb_spec (length fs) i); [right; eexists; reflexivity|].
  match goal with |- context [cbind ?m _ t] => assert (C : m t = COk tt t \/ m t = CFail t) end.
  { destruct nmd.
    - destruct names as [|nm names]; [right; reflexivity|]. destruct (field_index fs nm) as [[k g]|] eqn:Fi; [|right; reflexivity]. apply check_total; auto. eapply field_live; [exact Y|reflexivity|exact Fi].
    - destruct (nth_error fs i) as [f|] eqn:N; [|apply nth_error_None in N; lia]. apply check_total; auto. apply Lf. eapply nth_error_In; eauto. }
  destruct C as [C|C]; [rewrite (cb_ok _ _ _ _ _ C)|rewrite (cb_fail _ _ _ _ C); right; eexists; reflexivity].
  destruct (IH nmd (tl names) (S i)) as [(es & E2)|(t' & E2)]; [rewrite (cb_ok _ _ _ _ _ E2); left|rewrite (cb_fail _ _ _ _ E2); right]; eexists; reflexivity.
Qed.

Ltac sub H := destruct (sub_total _ H) as [(?te & ?E & ?L)|(?tf & ?E)];
  match goal with E : resolve ?e t = _ |- _ => unfold cbind at 1; rewrite E end; [|apply ans_fail].
Lemma resolve_total e : total e.
Proof.
  induction e using expr_ind'; intros Kn Ot; cbn [resolve urefs ok_t] in *; try apply ans_ok.
  - destruct r as [r|]; [|apply ans_fail]. inversion Kn as [|? ? (g & V) _]; subst. apply ref_vtag in V. unfold cget, cbind, or_ub. rewrite V. apply ans_ok.
  - unfold cget, cbind at 1. destruct (reference_function t f) as [y|] eqn:F; [|apply ans_fail]. pose proof F as F0. apply find_some in F0 as (J & Q).
    assert (exists ps va ret, sig_of (sy_body y) = Some (ps, va, ret)) as (ps & va & ret & Sg) by (unfold is_function in Q; destruct (sy_body y); try discriminate; cbn; eauto).
    destruct (fun_ret _ _ _ _ J Sg) as (Lp & g & -> & L). rewrite Sg. unfold or_ub, cbind at 1. unfold cbind at 1.
    destruct (args_total _ H Kn Ot ps va Lp) as [(es & ->)|(t' & ->)]; [apply ans_ok|apply ans_fail].
  - apply Forall_app in Kn as (K1 & K2). destruct Ot as (O1 & O2). sub (IHe1 K1 O1). sub (IHe2 K2 O2).
    destruct (kindm_total _ L) as (k1 & Q1). destruct (kindm_total _ L0) as (k2 & Q2). unfold cbind at 1. rewrite Q1. unfold cbind at 1. rewrite Q2.
    unfold cbind, or_fail. destruct (bin_tag o k1 k2); [apply ans_ok|apply ans_fail].
  - sub (IHe Kn Ot). destruct (kindm_total _ L) as (k1 & Q1). unfold cbind at 1. rewrite Q1. unfold cbind, or_fail. destruct (un_tag o k1); [apply ans_ok|apply ans_fail].
  - sub (IHe Kn Ot). apply ans_ok.
  - destruct Ot as ((y & d & fs & Y & B) & Ot). pose proof (Sd _ _ _ _ Y B) as ->. unfold cget, cbind at 1. rewrite Y. destruct y as [yi yn yb]. cbn in B. subst yb.
    unfold cbind. destruct (inits_total _ _ _ _ _ Y eq_refl H Kn Ot (match ns with [] => false | _ => true end) ns 0) as [(es & ->)|(t' & ->)]; [apply ans_ok|apply ans_fail].
  - destruct Ot as (O1 & Lg). sub (IHe Kn O1). destruct (kindm_total _ L) as (k1 & Q1). destruct (kindm_total _ Lg) as (k2 & Q2). unfold cbind at 1. rewrite Q1. unfold cbind at 1. rewrite Q2.
    destruct (_ || _); [apply ans_ok|apply ans_fail].
  - sub (IHe Kn Ot). destruct (kindm_total _ L) as (k1 & Q1). unfold cbind at 1. rewrite Q1. destruct k1; try apply ans_fail. destruct (tag_of te) eqn:Tg; try apply ans_fail.
    unfold kindm in Q1. cbn in Q1. unfold cget, cbind at 1. destruct (sym_at t id) as [[yi yn []]|] eqn:Y; try discriminate. unfold or_fail, cbind.
    destruct (field_index fields f) as [[k g]|]; [apply ans_ok|apply ans_fail].
  - apply Forall_app in Kn as (K1 & K2). destruct Ot as (O1 & O2). sub (IHe1 K1 O1). sub (IHe2 K2 O2). destruct (tag_name_live _ L) as (nm & Nm).
    unfold cget, cbind at 1. unfold or_ub at 1, cbind at 1. rewrite Nm. destruct (reference_function t _) as [y|] eqn:F; [|apply ans_fail]. pose proof F as F0. apply find_some in F0 as (J & Q).
    assert (exists ps va ret, sig_of (sy_body y) = Some (ps, va, ret)) as (ps & va & ret & Sg) by (unfold is_function in Q; destruct (sy_body y); try discriminate; cbn; eauto).
    destruct (fun_ret _ _ _ _ J Sg) as (Lp & g & -> & Lg). rewrite Sg. apply ans_ok.
  - apply Forall_app in Kn as (K1 & K2). apply Forall_app in K2 as (K2 & K3). destruct Ot as (O1 & O2 & O3). sub (IHe1 K1 O1).
    destruct (kindm_total _ L) as (k1 & Q1). unfold cbind at 1. rewrite Q1. destruct (same_kind k1 KBoolT); [|apply ans_fail]. sub (IHe2 K2 O2). sub (IHe3 K3 O3).
    destruct (tag_eq_dec _ _); [apply ans_ok|apply ans_fail].
Qed.
End Expr.
