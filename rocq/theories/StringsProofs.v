From Verif Require Import Base Values ValuesSpec ValuesProofs Strings.
Local Open Scope nat_scope.

Lemma find_string_spec tbl s : forall i, match find_string tbl s i with
  | Some j => i <= j /\ nth_error tbl (j - i) = Some s
  | None => ~ In s tbl
  end.
Proof.
  induction tbl as [|t tbl IH]; intros i; simpl; [auto|].
  destruct (text_eqb t s) eqn:E.
  - apply text_eqb_eq in E. subst. rewrite Nat.sub_diag. auto.
  - specialize (IH (S i)). destruct (find_string tbl s (S i)) as [j|].
    + destruct IH as [L N]. split; [lia|]. replace (j - i) with (S (j - S i)) by lia. exact N.
    + intros [->|H]; [|contradiction]. rewrite text_eqb_refl in E. discriminate.
Qed.

Lemma register_spec tbl s : NoDup tbl ->
  match register_string tbl s with
  | Ok (t, i) => NoDup t /\ nth_error t i = Some (until_nul s) /\
      (exists r, t = tbl ++ r) /\ (forall x, In x t <-> In x tbl \/ x = until_nul s) /\
      (length tbl <= max_strings -> length t <= max_strings)
  | Abort => max_strings <= length tbl /\ ~ In (until_nul s) tbl
  | _ => False
  end.
Proof.
  intros ND. unfold register_string. pose proof (find_string_spec tbl (until_nul s) 0) as F.
  destruct (find_string tbl (until_nul s) 0) as [i|].
  - destruct F as [_ F]. rewrite Nat.sub_0_r in F. split; [exact ND|]. split; [exact F|].
    split; [exists []; rewrite app_nil_r; reflexivity|]. split; [|auto].
    intros x. split; [auto|]. intros [H| ->]; [exact H|]. eapply nth_error_In; eauto.
  - unfold oassert. destruct (length tbl <? max_strings) eqn:L.
    + apply Nat.ltb_lt in L. split.
      * rewrite <- (rev_involutive (tbl ++ _)). apply NoDup_rev.
        rewrite rev_app_distr. simpl. constructor; [|apply NoDup_rev; exact ND].
        rewrite <- in_rev. exact F.
      * split; [rewrite nth_error_app2 by lia; rewrite Nat.sub_diag; reflexivity|].
        split; [eauto|]. split.
        -- intros x. rewrite in_app_iff. simpl. intuition.
        -- intros _. rewrite app_length. simpl. lia.
    + apply Nat.ltb_ge in L. auto.
Qed.

Lemma nth_error_prefix {A} (l r : list A) i x : nth_error l i = Some x -> nth_error (l ++ r) i = Some x.
Proof.
  intros H. rewrite nth_error_app1; [exact H|]. apply nth_error_Some. congruence.
Qed.

(** For any history of registrations from any duplicate-free table. *)
Lemma register_all_spec ss : forall tbl, NoDup tbl -> length tbl <= max_strings ->
  match register_all tbl ss with
  | Ok (t, is) => NoDup t /\ (exists r, t = tbl ++ r) /\ length is = length ss /\
      length t <= max_strings /\
      (forall n s, nth_error ss n = Some s ->
         exists i, nth_error is n = Some i /\ nth_error t i = Some (until_nul s)) /\
      (forall x, In x t <-> In x tbl \/ exists s, In s ss /\ x = until_nul s)
  | Abort => exists l, NoDup l /\ max_strings < length l /\
      forall x, In x l -> In x tbl \/ exists s, In s ss /\ x = until_nul s
  | _ => False
  end.
Proof.
  induction ss as [|s ss IH]; intros tbl ND L; cbn [register_all].
  - split; [exact ND|]. split; [exists []; rewrite app_nil_r; reflexivity|].
    split; [reflexivity|]. split; [exact L|]. split; [intros [|n] s H; discriminate|].
    intros x. split; [auto|]. intros [H|(s & [] & _)]; exact H.
  - pose proof (register_spec tbl s ND) as R.
    destruct (register_string tbl s) as [[t1 i]| | |]; cbn [obind]; try contradiction.
    + destruct R as (ND1 & N1 & (r1 & E1) & I1 & L1). specialize (IH t1 ND1 (L1 L)).
      destruct (register_all t1 ss) as [[t2 is]| | |]; cbn [obind]; try contradiction.
      * destruct IH as (ND2 & (r2 & E2) & Li & L2 & A2 & I2).
        split; [exact ND2|]. split; [exists (r1 ++ r2); subst; rewrite app_assoc; reflexivity|].
        split; [simpl; congruence|]. split; [exact L2|]. split.
        -- intros [|n] x H; cbn [nth_error] in H |- *.
           ++ injection H as <-. exists i. split; [reflexivity|]. subst t2. apply nth_error_prefix. exact N1.
           ++ apply A2. exact H.
        -- intros x. rewrite I2, I1. split.
           ++ intros [[H|H]|(y & H & ->)]; [auto| |]; right; [exists s|exists y]; simpl; auto.
           ++ intros [H|(y & [<-|H] & ->)]; [auto|auto|]. right; eauto.
      * destruct IH as (l & NDl & Ll & Hl). exists l. repeat split; auto.
        intros x Hx. apply Hl in Hx as [Hx|(y & Hy & ->)].
        -- apply I1 in Hx as [Hx| ->]; [auto|]. right; exists s; simpl; auto.
        -- right; exists y; simpl; auto.
    + destruct R as [R1 R2]. exists (until_nul s :: tbl). split; [constructor; assumption|].
      split; [simpl; lia|]. intros x [<-|Hx]; [|auto]. right; exists s; simpl; auto.
Qed.

Lemma interning_L ss : 
  match register_all [] ss with
  | Ok (t, is) =>
      length is = length ss /\ length t <= 1024 /\
      (forall n s i, nth_error ss n = Some s -> nth_error is n = Some i ->
         nth_error t i = Some (until_nul s)) /\
      (forall n m s s' i j, nth_error ss n = Some s -> nth_error ss m = Some s' ->
         nth_error is n = Some i -> nth_error is m = Some j ->
         (i = j <-> until_nul s = until_nul s'))
  | Abort => exists l, NoDup l /\ 1024 < length l /\
               forall x, In x l -> exists s, In s ss /\ x = until_nul s
  | _ => False
  end.
Proof.
  pose proof (register_all_spec ss [] (NoDup_nil _) ltac:(simpl; lia)) as H.
  destruct (register_all [] ss) as [[t is]| | |]; try contradiction.
  - destruct H as (ND & _ & Li & Lt & A & _). split; [exact Li|]. split; [exact Lt|].
    assert (B : forall n s i, nth_error ss n = Some s -> nth_error is n = Some i ->
                nth_error t i = Some (until_nul s)).
    { intros n s i H1 H2. destruct (A n s H1) as (i' & H3 & H4). congruence. }
    split; [exact B|]. intros n m s s' i j H1 H2 H3 H4.
    pose proof (B _ _ _ H1 H3) as T1. pose proof (B _ _ _ H2 H4) as T2. split.
    + intros ->. congruence.
    + intros E. rewrite E in T1.
      apply (proj1 (NoDup_nth_error t) ND); [apply nth_error_Some; congruence|congruence].
  - destruct H as (l & ND & L & Hl). exists l. repeat split; auto.
    intros x Hx. destruct (Hl x Hx) as [[]|H]. exact H.
Qed.

(** Indices handed out earlier keep their meaning. *)
Lemma interning_stable_L ss ss' t is t' is' :
  register_all [] ss = Ok (t, is) -> register_all t ss' = Ok (t', is') ->
  forall i s, nth_error t i = Some s -> nth_error t' i = Some s.
Proof.
  intros H1 H2 i s Hi.
  pose proof (register_all_spec ss [] (NoDup_nil _) ltac:(simpl; lia)) as R. rewrite H1 in R.
  destruct R as (ND & _ & _ & L & _).
  pose proof (register_all_spec ss' t ND L) as R. rewrite H2 in R.
  destruct R as (_ & (r & ->) & _). apply nth_error_prefix. exact Hi.
Qed.
