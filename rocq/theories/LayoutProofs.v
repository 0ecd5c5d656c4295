From Verif Require Import Base Token Values Code CodeSpec CodeProofs Syntax Symbols Compile Layout.
Local Open Scope Z_scope.

(** ** Two programs that agree on a range *)
Definition agree (a b : Z) (c C : program) : Prop := forall i, a <= i < b -> byte_at C i = byte_at c i.

Lemma agree_sub a b a' b' c C : agree a b c C -> a <= a' -> b' <= b -> agree a' b' c C.
Proof. intros A L1 L2 i Hi. apply A. lia. Qed.

Lemma agree_refl a b c : agree a b c c.
Proof. intros i _. reflexivity. Qed.

Lemma agree_trans a b c d e : agree a b c d -> agree a b d e -> agree a b c e.
Proof. intros A B i Hi. rewrite (B i Hi). apply A; auto. Qed.

Lemma bytes_agree n : forall c C a bs, bytes_at c a n = Ok bs -> agree a (a + Z.of_nat n) c C ->
  bytes_at C a n = Ok bs.
Proof.
  induction n as [|n IH]; intros c C a bs E A; [exact E|]. cbn [bytes_at] in *.
  rewrite (A a) by lia. destruct (byte_at c a) as [b| | |]; try discriminate.
  destruct (bytes_at c (a + 1) n) as [bs'| | |] eqn:E1; try discriminate.
  rewrite (IH _ _ _ _ E1); auto. eapply agree_sub; eauto; lia.
Qed.

Lemma align4_ge a : a <= align_up a 4.
Proof. apply (align_up_ge a 2). lia. Qed.
Lemma align8_ge a : a <= align_up a 8.
Proof. apply (align_up_ge a 3). lia. Qed.

Lemma read_agree4 c C a v b : read_value_at 4 4 c a = Ok (v, b) -> agree a b c C ->
  read_value_at 4 4 C a = Ok (v, b) /\ a < b.
Proof.
  unfold read_value_at. intros E A. pose proof (align4_ge a).
  destruct (bytes_at c (align_up a 4) 4) as [bs| | |] eqn:E1; try discriminate. injection E as E2 E3. subst v b.
  rewrite (bytes_agree 4 _ _ _ _ E1); [split; [reflexivity|lia]|]. eapply agree_sub; eauto; lia.
Qed.
Lemma read_agree8 c C a v b : read_value_at 8 8 c a = Ok (v, b) -> agree a b c C ->
  read_value_at 8 8 C a = Ok (v, b) /\ a < b.
Proof.
  unfold read_value_at. intros E A. pose proof (align8_ge a).
  destruct (bytes_at c (align_up a 8) 8) as [bs| | |] eqn:E1; try discriminate. injection E as E2 E3. subst v b.
  rewrite (bytes_agree 8 _ _ _ _ E1); [split; [reflexivity|lia]|]. eapply agree_sub; eauto; lia.
Qed.
Lemma read_lt4 c a v b : read_value_at 4 4 c a = Ok (v, b) -> a < b.
Proof. intros E. eapply read_agree4 in E; [apply E|apply agree_refl]. Qed.
Lemma read_lt8 c a v b : read_value_at 8 8 c a = Ok (v, b) -> a < b.
Proof. intros E. eapply read_agree8 in E; [apply E|apply agree_refl]. Qed.

Lemma byte_at_nonneg c a b : byte_at c a = Ok b -> 0 <= a.
Proof. unfold byte_at. destruct (Z.ltb_spec a 0); [discriminate|auto]. Qed.

Ltac split_decode E :=
  repeat match type of E with
  | context [match ?x with _ => _ end] =>
      match x with
      | byte_at _ _ => destruct x eqn:?; try discriminate E
      | read_value_at _ _ _ _ => destruct x as [[? ?]| | |] eqn:?; try discriminate E
      | _ => destruct x; try discriminate E
      end
  end.

Lemma decode_range c a i b : decode c a = Ok (i, b) -> 0 <= a < b.
Proof.
  unfold decode. intros E. destruct (byte_at c a) as [op| | |] eqn:E0; try discriminate.
  apply byte_at_nonneg in E0.
  split_decode E; injection E as E1 E2; subst;
    repeat match goal with
    | H : read_value_at 4 4 _ _ = Ok _ |- _ => apply read_lt4 in H
    | H : read_value_at 8 8 _ _ = Ok _ |- _ => apply read_lt8 in H
    end; lia.
Qed.

Lemma decode_agree c C a i b : decode c a = Ok (i, b) -> agree a b c C -> decode C a = Ok (i, b).
Proof.
  intros E A. pose proof (decode_range _ _ _ _ E) as R. unfold decode in *.
  rewrite (A a) by lia. destruct (byte_at c a) as [op| | |] eqn:E0; try discriminate.
  split_decode E; injection E as E1 E2; subst; try reflexivity;
    repeat match goal with
    | H : read_value_at 4 4 c ?x = Ok (_, ?b) |- _ =>
        destruct (read_agree4 _ C _ _ _ H) as [-> ?];
          [pose proof (read_lt4 _ _ _ _ H); eapply agree_sub; eauto; lia|clear H]
    | H : read_value_at 8 8 c ?x = Ok (_, ?b) |- _ =>
        destruct (read_agree8 _ C _ _ _ H) as [-> ?];
          [pose proof (read_lt8 _ _ _ _ H); eapply agree_sub; eauto; lia|clear H]
    | H : byte_at c ?x = Ok _ |- _ => first [rewrite (A x) by lia; rewrite H; clear H | clear H]
    end; try reflexivity.
  all: fail.
Qed.

(** ** Ranges *)
Section Range.
Variable t : tbl.
Variable C : program.

Lemma at_range a i b : at_i C a i b -> a < b.
Proof. intros E. apply decode_range in E. lia. Qed.
Lemma jmp_range a x b : jmp C a x b -> a < b.
Proof. intros (k & E & _). apply decode_range in E. lia. Qed.
Lemma jz_range a x b : jz C a x b -> a < b.
Proof. intros (k & E & _). apply decode_range in E. lia. Qed.
Lemma ref_range r a b : at_ref t C r a b -> a < b.
Proof.
  destruct r; cbn [at_ref]; intros (k & _ & E); try (eapply at_range; eassumption).
  destruct k; try (eapply at_range; eassumption). apply E.
Qed.
Lemma set_range r a b : at_set t C r a b -> a < b.
Proof. destruct r; cbn [at_set]; try tauto; intros (k & _ & E); eapply at_range; eauto. Qed.
Lemma call_range n y a b : at_call C n y a b -> a < b.
Proof. intros (s & i & _ & _ & E). eapply at_range; eauto. Qed.

Definition ranged (l : Z -> Z -> Prop) : Prop := forall a b, l a b -> a < b.

Lemma seq_range ls : Forall ranged ls -> forall a b, lay_seq ls a b -> a <= b.
Proof.
  induction 1 as [|l ls R F IH]; intros a b; cbn [lay_seq].
  - intros ->. lia.
  - intros (m & L & S). apply R in L. apply IH in S. lia.
Qed.

Lemma pick_range f names : forall ls, Forall ranged ls -> forall a b, lay_pick f names ls a b -> a <= b.
Proof.
  induction names as [|nm names IH]; intros ls F a b; cbn [lay_pick]; [intros ->; lia|].
  destruct ls as [|l ls]; [intros ->; lia|]. inversion F; subst.
  destruct (text_eqb nm f); [intros L; apply H1 in L; lia|]. apply IH; auto.
Qed.

Lemma fields_range names fs : forall ls, Forall ranged ls -> forall a b, lay_fields fs names ls a b -> a <= b.
Proof.
  induction fs as [|f fs IH]; intros ls F a b; cbn [lay_fields]; [intros ->; lia|].
  intros (m & L & S). apply pick_range in L; auto. apply (IH _ F) in S. lia.
Qed.

Lemma bin_range o i one l r : ranged l -> ranged r -> ranged (lay_bin C o i one l r).
Proof.
  intros L R a b (m & E1 & E2). apply L in E1. destruct one.
  - apply at_range in E2. lia.
  - destruct E2 as (m' & E2 & E3). apply R in E2. apply at_range in E3. lia.
Qed.

Ltac ranges :=
  repeat match goal with
  | H : at_i _ _ _ _ |- _ => apply at_range in H
  | H : jmp _ _ _ _ |- _ => apply jmp_range in H
  | H : jz _ _ _ _ |- _ => apply jz_range in H
  | H : at_call _ _ _ _ _ |- _ => apply call_range in H
  | H : at_set _ _ _ _ _ |- _ => apply set_range in H
  | H : ranged (lay _ _ ?e), H1 : lay _ _ ?e _ _ |- _ => apply H in H1
  | H : _ /\ _ |- _ => destruct H
  | H : exists _, _ |- _ => destruct H
  end.

Lemma lay_range e : ranged (lay t C e).
Proof.
  induction e using texpr_ind'; intros a0 b0 L; cbn [lay] in L;
    try (ranges; try assumption; lia); try (eapply ref_range; eauto; fail); try exact (IHe _ _ L); try (apply L; fail).
  - (* call *) destruct L as (m1 & m2 & L & L1 & L2). apply seq_range in L; [|apply Forall_map; exact H]. ranges. lia.
  - (* binary *)
    destruct o; cbn [binop_of] in L; try (revert L; apply bin_range; assumption); ranges; lia.
  - (* unary *)
    destruct o; [|ranges; lia]. destruct e; ranges; try assumption; try lia.
  - (* constructor *)
    destruct L as (fs & m & E & L & A).
    assert (a0 <= m).
    { destruct ns; [apply seq_range in L; [|apply Forall_map; exact H]; tauto|].
      eapply fields_range in L; eauto. apply Forall_map; exact H. }
    ranges. lia.
Qed.

Lemma lays_ranged es : Forall ranged (map (lay t C) es).
Proof. apply Forall_map, Forall_forall. intros e _. apply lay_range. Qed.

Ltac ranges' :=
  repeat match goal with
  | H : at_i _ _ _ _ |- _ => apply at_range in H
  | H : jmp _ _ _ _ |- _ => apply jmp_range in H
  | H : jz _ _ _ _ |- _ => apply jz_range in H
  | H : at_call _ _ _ _ _ |- _ => apply call_range in H
  | H : at_set _ _ _ _ _ |- _ => apply set_range in H
  | H : lay _ _ _ _ _ |- _ => apply lay_range in H
  | H : lay_seq (map (lay _ _) _) _ _ |- _ => apply (seq_range _ (lays_ranged _)) in H
  | H : lay_bin _ _ _ _ (lay _ _ ?x) (lay _ _ ?y) _ _ |- _ =>
      apply (bin_range _ _ _ _ _ (lay_range x) (lay_range y)) in H
  | H : _ /\ _ |- _ => destruct H
  | H : exists _, _ |- _ => destruct H
  end.

Lemma rhs_range op l r : ranged (lay_rhs t C op l r).
Proof.
  intros a b. unfold lay_rhs. destruct (compound_op op) as [[]|]; intros L; ranges'; lia.
Qed.

Lemma assign_range op l r : ranged (lay_assign t C op l r).
Proof.
  intros a b. unfold lay_assign. destruct l; try tauto; intros L;
    repeat match goal with H : exists _, _ |- _ => destruct H | H : _ /\ _ |- _ => destruct H end;
    match goal with H : lay_rhs _ _ _ _ _ _ _ |- _ => apply rhs_range in H end; ranges'; lia.
Qed.

(** pending operands lie inside *)
Definition within (a b : Z) (p : list (bool * Z)) : Prop :=
  forall k pos, In (k, pos) p -> a <= pos /\ pos + 4 <= b.

Lemma within_app a m b p q : a <= m -> m <= b -> within a m p -> within m b q -> within a b (p ++ q).
Proof. intros L1 L2 W1 W2 k pos Hi. apply in_app_iff in Hi. destruct Hi as [Hi|Hi]; [apply W1 in Hi|apply W2 in Hi]; lia. Qed.
Lemma within_nil a b : within a b [].
Proof. intros k pos []. Qed.
Lemma within_sub a b a' b' p : within a b p -> a' <= a -> b <= b' -> within a' b' p.
Proof. intros W L1 L2 k pos Hi. apply W in Hi. lia. Qed.

Definition sranged (l : Z -> Z -> list (bool * Z) -> Prop) : Prop :=
  forall a b p, l a b p -> a <= b /\ within a b p.

Lemma stmts_range ls : Forall sranged ls -> sranged (lay_stmts ls).
Proof.
  induction 1 as [|l ls R F IH]; intros a b p; cbn [lay_stmts].
  - intros (-> & ->). split; [lia|apply within_nil].
  - intros (m & p1 & p2 & L & S & ->). apply R in L. apply IH in S. destruct L, S. split; [lia|].
    eapply within_app; eauto.
Qed.

Lemma jmp_operand a x b : jmp C a x b -> a <= b - 4.
Proof.
  intros (k & E & _). unfold decode in E. destruct (byte_at C a) as [op| | |] eqn:E0; try discriminate.
  split_decode E; injection E as E1 E2; try discriminate; subst. unfold read_value_at in Heqo.
  destruct (bytes_at _ _ _); try discriminate. injection Heqo as _ <-. pose proof (align4_ge (a + 1)). lia.
Qed.

Lemma fun_range (body : Z -> Z -> Prop) f a b : (forall x y, body x y -> x <= y) -> lay_fun t C body f a b -> a < b.
Proof.
  intros R (i & args & locals & ret & m1 & m2 & _ & _ & L & B & E). apply R in B. apply at_range in E.
  destruct (0 <? length locals)%nat; [apply at_range in L; lia|lia].
Qed.

Variable Fn : nat -> Z -> Prop.
Lemma stmt_range s : forall T, sranged (lay_stmt t C Fn T s).
Proof.
  induction s using tstmt_ind'; intros T a0 b0 p L; cbn [lay_stmt] in L.
  - destruct L as (L & ->). unfold lay_call in L. ranges'. split; [lia|apply within_nil].
  - destruct L as (L & ->). apply assign_range in L. split; [lia|apply within_nil].
  - destruct L as (L & ->). apply assign_range in L. split; [lia|apply within_nil].
  - destruct L as (-> & ->). split; [lia|apply within_nil].
  - destruct L.
  - revert L. apply stmts_range. apply Forall_map. eapply Forall_impl; [|exact H]. intros s Hs. apply Hs.
  - destruct L as (-> & m & L & _ & Fb). apply jmp_range in L. apply fun_range in Fb; [split; [lia|apply within_nil]|].
    intros x y (q & B). apply IHs in B. tauto.
  - destruct b as [y|].
    + destruct L as (m1 & m2 & m3 & m4 & p1 & p2 & L1 & L2 & L3 & L4 & L5 & ->).
      apply IHs in L3. eapply H in L5; [|reflexivity]. ranges'. split; [lia|].
      eapply (within_app _ m4); try lia; [eapply within_sub; [eassumption|lia|lia]|assumption].
    + destruct L as (m1 & m2 & L1 & L2 & L3). apply IHs in L3. ranges'. split; [lia|]. eapply within_sub; eauto; lia.
  - destruct L as (-> & m1 & m2 & m3 & q & L1 & L2 & L3 & L4). apply IHs in L3. ranges'. split; [lia|apply within_nil].
  - destruct L as (-> & m0 & m1 & m2 & m3 & m4 & q1 & q2 & q3 & L1 & L2 & L3 & L4 & L5 & L6).
    apply IHs1 in L1. apply IHs2 in L5. apply IHs3 in L4. ranges'. split; [lia|apply within_nil].
  - destruct e; destruct L as (-> & L); ranges'; (split; [lia|apply within_nil]).
  - destruct L as (x & L & _ & ->). pose proof (jmp_operand _ _ _ L). apply jmp_range in L. split; [lia|].
    intros k pos [E|[]]. injection E as _ <-. lia.
  - destruct L as (x & L & _ & ->). pose proof (jmp_operand _ _ _ L). apply jmp_range in L. split; [lia|].
    intros k pos [E|[]]. injection E as _ <-. lia.
  - destruct L as (-> & ->). split; [lia|apply within_nil].
Qed.
End Range.

(** ** Moving to another program *)
Section Move.
Variable t : tbl.

Lemma at_agree c C a i b : at_i c a i b -> agree a b c C -> at_i C a i b.
Proof. intros E A. eapply decode_agree; eauto. Qed.
Lemma jmp_agree c C a x b : jmp c a x b -> agree a b c C -> jmp C a x b.
Proof. intros (k & E & K) A. exists k. split; auto. eapply decode_agree; eauto. Qed.
Lemma jz_agree c C a x b : jz c a x b -> agree a b c C -> jz C a x b.
Proof. intros (k & E & K) A. exists k. split; auto. eapply decode_agree; eauto. Qed.
Lemma str_agree c C i a b : at_str c i a b -> agree a b c C -> at_str C i a b.
Proof. intros (R & E) A. split; auto. intros L. eapply at_agree; eauto. Qed.
Lemma ref_agree c C r a b : at_ref t c r a b -> agree a b c C -> at_ref t C r a b.
Proof.
  destruct r; cbn [at_ref]; intros (k & K & E) A; exists k; (split; [assumption|]); try (eapply at_agree; eassumption).
  destruct k; try (eapply at_agree; eassumption). eapply str_agree; eauto.
Qed.
Lemma set_agree c C r a b : at_set t c r a b -> agree a b c C -> at_set t C r a b.
Proof. destruct r; cbn [at_set]; try tauto; intros (k & K & E) A; exists k; (split; [assumption|]); eapply at_agree; eauto. Qed.
Lemma call_agree c C n y a b : at_call c n y a b -> agree a b c C -> at_call C n y a b.
Proof. intros (s & i & E1 & E2 & E3) A. exists s, i. split; auto. split; auto. eapply at_agree; eauto. Qed.

Definition moves c C (l l' : Z -> Z -> Prop) : Prop :=
  (forall a b, l a b -> a < b) /\ forall a b, l a b -> agree a b c C -> l' a b.

Lemma seq_move c C ls ls' : Forall2 (moves c C) ls ls' ->
  forall a b, lay_seq ls a b -> agree a b c C -> lay_seq ls' a b.
Proof.
  induction 1 as [|l l' ls ls' M F IH]; intros a b; cbn [lay_seq]; auto.
  intros (m & L & S) A. pose proof (proj1 M _ _ L).
  assert (m <= b).
  { clear - F S. revert m S. induction F as [|x y k k' (R & _) F IH]; intros m S; cbn [lay_seq] in S; [lia|].
    destruct S as (m' & S1 & S2). apply R in S1. apply IH in S2. lia. }
  exists m. split; [eapply M; eauto; eapply agree_sub; eauto; lia|]. apply IH; auto. eapply agree_sub; eauto; lia.
Qed.

Lemma pick_move c C f names : forall ls ls', Forall2 (moves c C) ls ls' ->
  forall a b, lay_pick f names ls a b -> (agree a b c C -> lay_pick f names ls' a b) /\ a <= b.
Proof.
  induction names as [|nm names IH]; intros ls ls' F a b; cbn [lay_pick]; [intros ->; split; auto; lia|].
  destruct F as [|l l' ls ls' M F]; [intros ->; split; auto; lia|].
  destruct (text_eqb nm f).
  - intros L. split; [intros A; eapply M; eauto|]. apply (proj1 M) in L. lia.
  - apply IH; auto.
Qed.

Lemma fields_move c C names fs : forall ls ls', Forall2 (moves c C) ls ls' ->
  forall a b, lay_fields fs names ls a b -> (agree a b c C -> lay_fields fs names ls' a b) /\ a <= b.
Proof.
  induction fs as [|f fs IH]; intros ls ls' F a b; cbn [lay_fields]; [intros ->; split; auto; lia|].
  intros (m & L & S). destruct (pick_move _ _ _ _ _ _ F _ _ L) as (L' & R). destruct (IH _ _ F _ _ S) as (S' & R').
  split; [|lia]. intros A. exists m. split; [apply L'|apply S']; eapply agree_sub; eauto; lia.
Qed.

Lemma bin_move c C o i one l r l' r' : moves c C l l' -> moves c C r r' ->
  forall a b, lay_bin c o i one l r a b -> agree a b c C -> lay_bin C o i one l' r' a b.
Proof.
  intros (R1 & M1) (R2 & M2) a b (m & L & E) A. pose proof (R1 _ _ L). destruct one.
  - pose proof (at_range _ _ _ _ E). exists m. split; [apply M1|eapply at_agree]; eauto; eapply agree_sub; eauto; lia.
  - destruct E as (m' & E1 & E2). pose proof (R2 _ _ E1). pose proof (at_range _ _ _ _ E2).
    exists m. split; [apply M1; auto; eapply agree_sub; eauto; lia|].
    exists m'. split; [apply M2|eapply at_agree]; eauto; eapply agree_sub; eauto; lia.
Qed.


Ltac know T pf := lazymatch goal with H : T |- _ => fail | _ => assert T by pf end.
Ltac ranges :=
  repeat match goal with
  | H : _ /\ _ |- _ => destruct H
  | H : exists _, _ |- _ => destruct H
  end;
  repeat match goal with
  | H : at_i _ ?a _ ?b |- _ => know (a < b) ltac:(eapply at_range; exact H)
  | H : jmp _ ?a _ ?b |- _ => know (a < b) ltac:(eapply jmp_range; exact H)
  | H : jz _ ?a _ ?b |- _ => know (a < b) ltac:(eapply jz_range; exact H)
  | H : at_call _ _ _ ?a ?b |- _ => know (a < b) ltac:(eapply call_range; exact H)
  | H : at_set _ _ _ ?a ?b |- _ => know (a < b) ltac:(eapply set_range; exact H)
  | H : lay _ _ _ ?a ?b |- _ => know (a < b) ltac:(eapply lay_range; exact H)
  | H : lay_rhs _ _ _ _ _ ?a ?b |- _ => know (a < b) ltac:(eapply rhs_range; exact H)
  | H : lay_assign _ _ _ _ _ ?a ?b |- _ => know (a < b) ltac:(eapply assign_range; exact H)
  | H : lay_seq (map (lay _ _) _) ?a ?b |- _ => know (a <= b) ltac:(eapply (seq_range _ (lays_ranged _ _ _)); exact H)
  end.
Ltac sub := match goal with A : agree _ _ _ _ |- _ => eapply agree_sub; [exact A|lia|lia] end.
Ltac piece :=
  first [eassumption
  | eapply at_agree; [eassumption|sub] | eapply jmp_agree; [eassumption|sub] | eapply jz_agree; [eassumption|sub]
  | eapply call_agree; [eassumption|sub] | eapply set_agree; [eassumption|sub]
  | match goal with IH : (forall c C a b, lay t c ?e a b -> _) |- lay t _ ?e _ _ => eapply IH; [eassumption|sub] end ].
Ltac pieces := repeat match goal with |- exists _, _ => eexists | |- _ /\ _ => split end; piece.

Lemma lay_agree e : forall c C a b, lay t c e a b -> agree a b c C -> lay t C e a b.
Proof.
  induction e using texpr_ind'; intros c0 C0 a0 b0 L A; cbn [lay] in *;
    try (ranges; pieces; fail); try (eapply str_agree; eauto; fail); try (eapply ref_agree; eauto; fail);
    try (eapply at_agree; eauto; fail); try (eapply IHe; eauto; fail).
  - (* call *)
    destruct L as (m1 & m2 & L & L1 & L2). ranges. exists m1, m2. split; [|split; piece].
    eapply seq_move; [|exact L|sub]. clear - H. induction H; constructor; auto. split; [apply lay_range|apply H].
  - (* binary *)
    assert (M1 : moves c0 C0 (lay t c0 e1) (lay t C0 e1)) by (split; [apply lay_range|apply IHe1]).
    assert (M2 : moves c0 C0 (lay t c0 e2) (lay t C0 e2)) by (split; [apply lay_range|apply IHe2]).
    destruct o; cbn [binop_of] in *; try (eapply bin_move; eauto; fail); ranges; pieces.
  - (* unary *)
    destruct o; [|ranges; pieces]. destruct e; ranges; try pieces; eapply at_agree; eauto.
  - (* constructor *)
    destruct L as (fs & m & E & L & L1). ranges.
    assert (F : Forall2 (moves c0 C0) (map (lay t c0) args) (map (lay t C0) args)).
    { clear - H. induction H; constructor; auto. split; [apply lay_range|apply H]. }
    exists fs, m. split; auto. destruct ns.
    + pose proof (seq_range _ (lays_ranged _ _ _) _ _ L). split; [|piece]. eapply seq_move; eauto. sub.
    + destruct (fields_move _ _ _ _ _ _ F _ _ L) as (L' & R). split; [apply L'; sub|piece].
Qed.

Lemma lay_moves e c C : moves c C (lay t c e) (lay t C e).
Proof. split; [apply lay_range|intros a b; apply lay_agree]. Qed.

Lemma lay_seq_agree es c C a b : lay_seq (map (lay t c) es) a b -> agree a b c C -> lay_seq (map (lay t C) es) a b.
Proof.
  apply seq_move. induction es; constructor; auto. apply lay_moves.
Qed.

Ltac piece ::=
  first [eassumption
  | eapply at_agree; [eassumption|sub] | eapply jmp_agree; [eassumption|sub] | eapply jz_agree; [eassumption|sub]
  | eapply call_agree; [eassumption|sub] | eapply set_agree; [eassumption|sub] | eapply lay_agree; [eassumption|sub]
  | eapply lay_seq_agree; [eassumption|sub] ].

Lemma rhs_agree op l r c C a b : lay_rhs t c op l r a b -> agree a b c C -> lay_rhs t C op l r a b.
Proof.
  unfold lay_rhs. destruct (compound_op op) as [[]|]; intros L A;
    try (eapply bin_move; [apply lay_moves|apply lay_moves|eassumption|assumption]). piece.
Qed.

Lemma assign_agree op l r c C a b : lay_assign t c op l r a b -> agree a b c C -> lay_assign t C op l r a b.
Proof.
  unfold lay_assign. destruct l; try tauto; intros L A; ranges;
    repeat match goal with |- exists _, _ => eexists | |- _ /\ _ => split end;
    first [piece | eapply rhs_agree; [eassumption|sub]].
Qed.

Lemma lay_call_agree f args c C a b : lay_call t c f args a b -> agree a b c C -> lay_call t C f args a b.
Proof. unfold lay_call. intros L A. ranges. pieces. Qed.

(** Statements: outside of the pending operands nothing changes, the pending
    jumps may get new targets. *)
Definition untouched (a b : Z) (p : list (bool * Z)) (c C : program) : Prop :=
  forall i, a <= i < b -> (forall k pos, In (k, pos) p -> ~ (pos <= i < pos + 4)) -> byte_at C i = byte_at c i.
Definition redirected (a b : Z) (p : list (bool * Z)) (T T' : bool -> Z -> Prop) (c C : program) : Prop :=
  forall k x aa bb, In (k, bb - 4) p -> a <= aa -> bb <= b -> agree aa (bb - 4) c C ->
    jmp c aa x bb -> T k x -> exists x', jmp C aa x' bb /\ T' k x'.

Lemma untouched_nil a b c C : untouched a b [] c C -> agree a b c C.
Proof. intros U i Hi. apply U; auto. Qed.

Lemma agree_untouched a b p c C : agree a b c C -> untouched a b p c C.
Proof. intros A i Hi _. apply A; auto. Qed.

Lemma agree_redirected a b p T c C : agree a b c C -> redirected a b p T T c C.
Proof. intros A k x aa bb _ L1 L2 _ J Tx. exists x. split; auto. eapply jmp_agree; eauto. eapply agree_sub; eauto. Qed.

Definition smoves c C T T' (l l' : Z -> Z -> list (bool * Z) -> Prop) : Prop :=
  sranged l /\ forall a b p, l a b p -> untouched a b p c C -> redirected a b p T T' c C -> l' a b p.

Lemma stmts_move c C T T' ls ls' : Forall2 (smoves c C T T') ls ls' -> smoves c C T T' (lay_stmts ls) (lay_stmts ls').
Proof.
  induction 1 as [|l l' ls ls' (R & M) F (IR & IH)].
  - split; [apply stmts_range; constructor|]. cbn. auto.
  - split.
    { apply stmts_range. constructor; auto. clear - F. induction F; constructor; auto. apply H. }
    intros a b p (m & p1 & p2 & L & S & ->) U Rd. destruct (R _ _ _ L) as (R1 & W1). destruct (IR _ _ _ S) as (R2 & W2).
    exists m, p1, p2. split; [|split; auto].
    + apply M; auto.
      * intros i Hi Hp. apply U; [lia|]. intros k pos Hk. apply in_app_iff in Hk. destruct Hk as [Hk|Hk]; [eauto|].
        apply W2 in Hk. lia.
      * intros k x aa bb Hk L1 L2. apply Rd; try lia. apply in_app_iff; auto.
    + apply IH; auto.
      * intros i Hi Hp. apply U; [lia|]. intros k pos Hk. apply in_app_iff in Hk. destruct Hk as [Hk|Hk]; [|eauto].
        apply W1 in Hk. lia.
      * intros k x aa bb Hk L1 L2. apply Rd; try lia. apply in_app_iff; auto.
Qed.

Lemma fun_move (body body' : Z -> Z -> Prop) f c C a b :
  (forall x y, body x y -> x <= y) -> (forall x y, body x y -> agree x y c C -> body' x y) ->
  lay_fun t c body f a b -> agree a b c C -> lay_fun t C body' f a b.
Proof.
  intros R M (i & args & locals & ret & m1 & m2 & E1 & E2 & L & B & E) A. pose proof (R _ _ B).
  pose proof (at_range _ _ _ _ E). exists i, args, locals, ret, m1, m2. split; auto. split; auto.
  assert (a <= m1) by (destruct (0 <? length locals)%nat; [pose proof (at_range _ _ _ _ L); lia|lia]).
  split; [|split; [apply M; auto; sub|piece]].
  destruct (0 <? length locals)%nat; [piece|auto].
Qed.

Variable Fn : nat -> Z -> Prop.
Lemma stmt_move s : forall T T' c C, smoves c C T T' (lay_stmt t c Fn T s) (lay_stmt t C Fn T' s).
Proof.
  induction s using tstmt_ind'; intros T T' c0 C0; (split; [apply stmt_range|]); intros a0 b0 p L U Rd; cbn [lay_stmt] in *.
  - destruct L as (L & ->). apply untouched_nil in U. split; auto. eapply lay_call_agree; eauto.
  - destruct L as (L & ->). apply untouched_nil in U. split; auto. eapply assign_agree; eauto.
  - destruct L as (L & ->). apply untouched_nil in U. split; auto. eapply assign_agree; eauto.
  - auto.
  - auto.
  - revert L U Rd. apply stmts_move. clear - H. induction H; constructor; auto.
  - destruct L as (-> & m & L & Ff & Fb). apply untouched_nil in U. split; auto. exists m.
    pose proof (jmp_range _ _ _ _ L).
    assert (Rb : forall x y, (exists q, lay_stmt t c0 Fn anywhere s x y q) -> x <= y).
    { intros x y (q & B). apply stmt_range in B. tauto. }
    pose proof (fun_range _ _ _ _ _ _ Rb Fb). split; [piece|]. split; [exact Ff|].
    eapply fun_move; [exact Rb| |exact Fb|sub].
    intros x y (q & B) A. exists q. apply (proj2 (IHs anywhere anywhere c0 C0)); auto.
    + apply agree_untouched; auto.
    + apply agree_redirected; auto.
  - destruct b as [y|].
    + destruct L as (m1 & m2 & m3 & m4 & p1 & p2 & L1 & L2 & L3 & L4 & L5 & ->). ranges.
      destruct (stmt_range _ _ _ _ _ _ _ _ L3) as (R3 & W3). destruct (stmt_range _ _ _ _ _ _ _ _ L5) as (R5 & W5).
      assert (A1 : agree a0 m2 c0 C0).
      { intros i Hi. apply U; [lia|]. intros k pos Hk. apply in_app_iff in Hk.
        destruct Hk as [Hk|Hk]; [apply W3 in Hk|apply W5 in Hk]; lia. }
      assert (A2 : agree m3 m4 c0 C0).
      { intros i Hi. apply U; [lia|]. intros k pos Hk. apply in_app_iff in Hk.
        destruct Hk as [Hk|Hk]; [apply W3 in Hk|apply W5 in Hk]; lia. }
      exists m1, m2, m3, m4, p1, p2. split; [piece|]. split; [piece|]. split; [|split; [piece|split; [|reflexivity]]].
      * apply (proj2 (IHs T T' c0 C0)); auto.
        -- intros i Hi Hp. apply U; [lia|]. intros k pos Hk. apply in_app_iff in Hk. destruct Hk as [Hk|Hk]; [eauto|].
           apply W5 in Hk. lia.
        -- intros k x aa bb Hk Q1 Q2. apply Rd; try lia. apply in_app_iff; auto.
      * apply (proj2 (H _ eq_refl T T' c0 C0)); auto.
        -- intros i Hi Hp. apply U; [lia|]. intros k pos Hk. apply in_app_iff in Hk. destruct Hk as [Hk|Hk]; [|eauto].
           apply W3 in Hk. lia.
        -- intros k x aa bb Hk Q1 Q2. apply Rd; try lia. apply in_app_iff; auto.
    + destruct L as (m1 & m2 & L1 & L2 & L3). ranges. destruct (stmt_range _ _ _ _ _ _ _ _ L3) as (R3 & W3).
      assert (A1 : agree a0 m2 c0 C0).
      { intros i Hi. apply U; [lia|]. intros k pos Hk. apply W3 in Hk; lia. }
      exists m1, m2. split; [piece|]. split; [piece|].
      apply (proj2 (IHs T T' c0 C0)); auto.
      * intros i Hi Hp. apply U; auto. lia.
      * intros k x aa bb Hk Q1 Q2. apply Rd; auto. lia.
  - destruct L as (-> & m1 & m2 & m3 & q & L1 & L2 & L3 & L4). apply untouched_nil in U. ranges.
    destruct (stmt_range _ _ _ _ _ _ _ _ L3) as (R3 & W3). split; auto.
    exists m1, m2, m3, q. split; [piece|]. split; [piece|]. split; [|piece].
    apply (proj2 (IHs (targets b0 a0) (targets b0 a0) c0 C0)); auto; [apply agree_untouched|apply agree_redirected]; sub.
  - destruct L as (-> & m0 & m1 & m2 & m3 & m4 & q1 & q2 & q3 & L1 & L2 & L3 & L4 & L5 & L6). apply untouched_nil in U.
    ranges. destruct (stmt_range _ _ _ _ _ _ _ _ L1) as (R1 & _). destruct (stmt_range _ _ _ _ _ _ _ _ L4) as (R4 & _).
    destruct (stmt_range _ _ _ _ _ _ _ _ L5) as (R5 & _). split; auto.
    exists m0, m1, m2, m3, m4, q1, q2, q3. split; [|split; [piece|split; [piece|split; [|split; [|piece]]]]].
    + apply (proj2 (IHs1 anywhere anywhere c0 C0)); auto; [apply agree_untouched|apply agree_redirected]; sub.
    + apply (proj2 (IHs3 (targets b0 m3) (targets b0 m3) c0 C0)); auto; [apply agree_untouched|apply agree_redirected]; sub.
    + apply (proj2 (IHs2 anywhere anywhere c0 C0)); auto; [apply agree_untouched|apply agree_redirected]; sub.
  - destruct e; destruct L as (-> & L); apply untouched_nil in U; (split; [auto|]); ranges; pieces.
  - destruct L as (x & L & Tx & ->). destruct (Rd true x a0 b0) as (x' & J & Tx'); auto; try lia.
    { left. reflexivity. }
    { intros i Hi. apply U; [lia|]. intros k pos [E|[]]. injection E as _ <-. lia. }
    exists x'. auto.
  - destruct L as (x & L & Tx & ->). destruct (Rd false x a0 b0) as (x' & J & Tx'); auto; try lia.
    { left. reflexivity. }
    { intros i Hi. apply U; [lia|]. intros k pos [E|[]]. injection E as _ <-. lia. }
    exists x'. auto.
  - auto.
Qed.

Lemma stmt_agree s T c C a b p : lay_stmt t c Fn T s a b p -> agree a b c C -> lay_stmt t C Fn T s a b p.
Proof.
  intros L A. apply (proj2 (stmt_move s T T c C)); auto; [apply agree_untouched|apply agree_redirected]; auto.
Qed.
End Move.

(** Only the entry points of the functions a statement defines matter. *)
Lemma stmts_weaken ls ls' : Forall2 (fun l l' : Z -> Z -> list (bool * Z) -> Prop => forall a b p, l a b p -> l' a b p) ls ls' ->
  forall a b p, lay_stmts ls a b p -> lay_stmts ls' a b p.
Proof.
  induction 1 as [|l l' ls ls' M F IH]; intros a b p; cbn [lay_stmts]; auto.
  intros (m & p1 & p2 & L & S & ->). exists m, p1, p2. auto.
Qed.

Lemma stmt_entries t C (F F' : nat -> Z -> Prop) s :
  (forall f b, In (f, b) (bodies s) -> forall m, F f m -> F' f m) ->
  forall T a b p, lay_stmt t C F T s a b p -> lay_stmt t C F' T s a b p.
Proof.
  induction s using tstmt_ind'; intros HF T a0 b0 p L; cbn [lay_stmt bodies] in *; auto.
  - revert L. apply stmts_weaken. clear a0 b0 p. induction H as [|s ss Hs H IH]; constructor.
    + apply Hs. intros f b Hb. apply (HF f b). cbn [flat_map]. apply in_app_iff; auto.
    + apply IH. intros f b Hb. apply (HF f b). cbn [flat_map]. apply in_app_iff; auto.
  - destruct L as (-> & m & J & Ff & L). split; auto. exists m. split; auto. split; [eapply HF; [left; reflexivity|auto]|].
    destruct L as (i & args & locals & ret & m1 & m2 & L1 & L2 & L3 & (q & L4) & L5).
    exists i, args, locals, ret, m1, m2. do 3 (split; auto). split; auto. exists q. apply IHs; auto.
    intros g b Hb. apply (HF g b). right. exact Hb.
  - destruct b as [y|].
    + destruct L as (m1 & m2 & m3 & m4 & p1 & p2 & L1 & L2 & L3 & L4 & L5 & ->).
      exists m1, m2, m3, m4, p1, p2. do 2 (split; auto). split; [|split; auto; split; auto].
      * apply IHs; auto. intros f b Hb. apply (HF f b). apply in_app_iff; auto.
      * apply (H _ eq_refl); auto. intros f b Hb. apply (HF f b). apply in_app_iff; auto.
    + destruct L as (m1 & m2 & L1 & L2 & L3). exists m1, m2. auto.
  - destruct L as (-> & m1 & m2 & m3 & q & L1 & L2 & L3 & L4). split; auto. exists m1, m2, m3, q.
    do 2 (split; auto).
  - destruct L as (-> & m0 & m1 & m2 & m3 & m4 & q1 & q2 & q3 & L1 & L2 & L3 & L4 & L5 & L6). split; auto.
    exists m0, m1, m2, m3, m4, q1, q2, q3. split.
    { apply IHs1; auto. intros f b Hb. apply (HF f b). apply in_app_iff; auto. }
    do 2 (split; auto). split.
    { apply IHs3; auto. intros f b Hb. apply (HF f b). rewrite !in_app_iff; auto. }
    split; auto. apply IHs2; auto. intros f b Hb. apply (HF f b). rewrite !in_app_iff; auto.
Qed.
