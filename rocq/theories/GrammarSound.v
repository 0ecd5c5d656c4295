(** * Every tree the parser builds is spelled by the tokens it consumed *)
From Verif Require Import Base Token Lexer Values Syntax Symbols Parser Grammar GrammarProofs.
Local Open Scope nat_scope.
Local Open Scope cm_scope.

Lemma bind_ok {A B} (m : pm A) (f : A -> pm B) s b s' : cbind m f s = COk b s' -> exists a s1, m s = COk a s1 /\ f a s1 = COk b s'.
Proof. unfold cbind. destruct (m s); try discriminate. eauto. Qed.
Lemma next_ok s u s1 : next_token s = COk u s1 -> eats s [ps_tok s] s1 /\ ps_tbl s1 = ps_tbl s.
Proof. destruct u. intros N. split; [apply eats_step|apply next_tbl]; auto. Qed.
Lemma tbl_ok {A} (m : tbl -> cres tbl A) s x s1 : on_tbl m s = COk x s1 -> m (ps_tbl s) = COk x (ps_tbl s1) /\ s1 = retbl s (ps_tbl s1).
Proof. unfold on_tbl. destruct (m (ps_tbl s)); try discriminate. intros [= <- <-]. auto. Qed.
Lemma lexeme_ok s x s1 : lexeme s = COk x s1 -> tk_lexeme (ps_tok s) = Some x /\ s1 = s.
Proof. unfold lexeme. destruct (tk_lexeme (ps_tok s)); try discriminate. intros [= <- <-]. auto. Qed.
Lemma expect_ok k s u s1 : expect k s = COk u s1 -> tk (ps_tok s) = k /\ s1 = s.
Proof. unfold expect, cbind, last_tok. destruct (tok_eqb (tk (ps_tok s)) k) eqn:E; try discriminate. intros [= _ <-]. apply tok_eqb_eq in E. auto. Qed.
Lemma get_ok k s u s1 : get_expect k s = COk u s1 -> eats s [ps_tok s] s1 /\ ps_tbl s1 = ps_tbl s /\ tk (ps_tok s1) = k.
Proof. unfold get_expect. intros E. apply bind_ok in E as (x & s2 & E1 & E2). apply next_ok in E1 as (A & B). apply expect_ok in E2 as (C & ->). auto. Qed.
Lemma last_ok s k s1 : last_tok s = COk k s1 -> k = tk (ps_tok s) /\ s1 = s.
Proof. intros [= <- <-]. auto. Qed.
Lemma int_ok s k s1 : the_int s = COk k s1 -> k = tk_i (ps_tok s) /\ s1 = s.
Proof. intros [= <- <-]. auto. Qed.

(** one step backwards through a successful run *)
Ltac bk H := match type of H with
  | cbind _ _ _ = COk _ _ => let x := fresh "x" in let s := fresh "s" in let E := fresh "E" in apply bind_ok in H as (x & s & E & H); bk E
  | next_token _ = COk _ _ => let A := fresh "A" in let T := fresh "T" in apply next_ok in H as (A & T)
  | get_expect _ _ = COk _ _ => let A := fresh "A" in let T := fresh "T" in let K := fresh "K" in apply get_ok in H as (A & T & K)
  | expect _ _ = COk _ _ => let K := fresh "K" in apply expect_ok in H as (K & ->)
  | lexeme _ = COk _ _ => let K := fresh "K" in apply lexeme_ok in H as (K & ->)
  | last_tok _ = COk _ _ => apply last_ok in H as (-> & ->)
  | the_int _ = COk _ _ => apply int_ok in H as (-> & ->)
  | on_tbl _ _ = COk _ _ => let M := fresh "M" in let R := fresh "R" in apply tbl_ok in H as (M & R)
  | cret _ _ = COk _ _ => injection H; clear H; intros; subst
  | cfail _ = COk _ _ => discriminate H
  | _ => idtac
  end.

Lemma eats_retbl s t : eats s [] (retbl s t).
Proof. constructor. Qed.
(** all the tokens consumed on the way, as one list *)
Ltac eat := repeat match goal with
  | R : ?s1 = retbl ?s (ps_tbl ?s1) |- _ => is_var s1; let A := fresh "A" in let M := fresh "Q" in
      assert (A : eats s [] s1) by (rewrite R; apply eats_retbl); assert (M : ps_tok s1 = ps_tok s) by (rewrite R; reflexivity); clear R
  end;
  repeat match goal with A : eats ?s ?a ?m, B : eats ?m ?b ?t |- _ => let C := fresh "A" in pose proof (eats_trans _ _ _ _ _ A B) as C; clear A B end;
  repeat match goal with A : eats _ _ _ |- _ => progress (repeat rewrite <- app_assoc in A; cbn [app] in A; rewrite ?app_nil_r in A) end.

Lemma type_sound s g s' : parse_type s = COk g s' -> exists a, eats s a s' /\ spells_type (ps_tbl s) a g (ps_tbl s').
Proof.
  unfold parse_type. intros H. do 5 bk H. destruct (tok_eqb (tk (ps_tok s1)) QUESTION) eqn:Q1.
  - apply tok_eqb_eq in Q1. destruct (tag_eq_dec x1 GVoid); [discriminate H|]. do 3 bk H. eat. eexists. split; [eassumption|].
    replace (ps_tbl s') with (ps_tbl s2) by congruence. eapply st_opt; try eassumption; congruence.
  - bk H. eat. eexists. split; [eassumption|]. rewrite T. eapply st_name; [| |exact M]; congruence.
Qed.

(** ** The answers of each function *)
Definition open_ok (e : expr) (k : tokkind) : Prop := ends_open e = true -> prec_of k = None.
Definition below (q : nat) (k : tokkind) : Prop := forall p, prec_of k = Some p -> p < q.

Record sound (n : nat) : Prop := {
  so_expr : forall s e s', parse_expr n s = COk e s' -> exists a, eats s a s' /\ spells 0 (ps_tbl s) a e (ps_tbl s') /\ stops e (tk (ps_tok s'));
  so_factor : forall s e s', parse_factor n s = COk e s' ->
    exists a, eats s a s' /\ spells 6 (ps_tbl s) a e (ps_tbl s') /\ calm e (tk (ps_tok s')) /\ open_ok e (tk (ps_tok s'));
  so_rhs : forall q lhs s e s', parse_rhs n q lhs s = COk e s' -> forall s0 a0, eats s0 a0 s -> spells q (ps_tbl s0) a0 lhs (ps_tbl s) ->
    (forall k, prec_of (tk (ps_tok s)) = Some k -> q <= k -> spells k (ps_tbl s0) a0 lhs (ps_tbl s)) -> calm lhs (tk (ps_tok s)) -> open_ok lhs (tk (ps_tok s)) ->
    exists a, eats s0 a s' /\ spells q (ps_tbl s0) a e (ps_tbl s') /\ calm e (tk (ps_tok s')) /\ open_ok e (tk (ps_tok s')) /\ below q (tk (ps_tok s'));
  so_suffix : forall e s e' s', parse_suffix n e s = COk e' s' ->
    (~ is_suffix (tk (ps_tok s)) -> e' = e /\ s' = s) /\
    (forall s0 a0, eats s0 a0 s -> spells 7 (ps_tbl s0) a0 e (ps_tbl s) -> no_call e (tk (ps_tok s)) ->
      exists a, eats s0 a s' /\ spells 7 (ps_tbl s0) a e' (ps_tbl s') /\ calm e' (tk (ps_tok s')));
  so_value : forall s e s', parse_value n s = COk e s' -> exists a, eats s a s' /\
    ((spells 7 (ps_tbl s) a e (ps_tbl s') /\ no_call e (tk (ps_tok s'))) \/
     (spells 6 (ps_tbl s) a e (ps_tbl s') /\ calm e (tk (ps_tok s')) /\ open_ok e (tk (ps_tok s'))));
  so_dots : forall e s e' s', parse_dots n e s = COk e' s' -> forall s0 a0, eats s0 a0 s -> spells 7 (ps_tbl s0) a0 e (ps_tbl s) -> ends_id e = false ->
    exists a, eats s0 a s' /\ spells 7 (ps_tbl s0) a e' (ps_tbl s') /\ ends_id e' = false;
  so_call : forall s es s', parse_call n s = COk es s' -> exists o a c, eats s (o :: a ++ [c]) s' /\ tk o = OPENPAREN /\ tk c = CLOSEPAREN /\
    spells_args (ps_tbl s) a es (ps_tbl s');
  so_args : forall s es s', parse_args n s = COk es s' -> tk (ps_tok s') = CLOSEPAREN /\
    (tk (ps_tok s) = CLOSEPAREN -> es = [] /\ s' = s) /\
    exists a, eats s a s' /\ spells_args (ps_tbl s) a es (ps_tbl s');
  so_new : forall s p s', parse_new n s = COk p s' -> tk (ps_tok s') = CLOSECURLY /\
    (tk (ps_tok s) = CLOSECURLY -> p = ([], []) /\ s' = s) /\
    exists a, eats s a s' /\ spells_inits (ps_tbl s) a (fst p) (snd p) (ps_tbl s')
}.

Lemma ups p q T a e T' : p <= q -> q <= 7 -> spells q T a e T' -> spells p T a e T'.
Proof. intros L. induction L as [|q L IH]; intros M H; auto. apply IH; [lia|]. apply sp_up; [lia|auto]. Qed.
Lemma low_open p T a e T' : spells p T a e T' -> p = 7 -> ends_open e = false.
Proof. intros H. inversion H; subst; auto; intros; try discriminate. { pose proof (strength_range o). lia. } lia. Qed.
Lemma not_call e k : ends_id e = false -> no_call e k.
Proof. intros E X. congruence. Qed.

Theorem exprs_sound n : sound n.
Proof.
  induction n as [|n IH]; [constructor; intros; discriminate|]. destruct IH as [He Hf Hr Hs Hv Hd Hc Ha Hn].
  constructor.
  - intros s e s' H. cbn [parse_expr] in H. bk H. apply Hf in E as (a & A & Sp & C & O).
    eapply Hr in H; try eassumption.
    + destruct H as (b & B & Sp' & C' & O' & W). exists b. split; auto. split; auto. split; [apply C'|]. split; [|apply C'].
      apply no_prec. destruct (prec_of (tk (ps_tok s'))) eqn:P; auto. apply W in P. lia.
    + eapply ups; [| |exact Sp]; lia.
    + intros k P _. apply bop_prec in P as (o & _ & -> & _). pose proof (strength_range o). eapply ups; [| |exact Sp]; lia.
  - intros s e s' H. cbn [parse_factor] in H. bk H. apply Hv in E as (a & A & [(Sp & C)|(Sp & C & O)]).
    + destruct (Hs _ _ _ _ H) as (_ & G). destruct (G _ _ A Sp C) as (b & B & Sp' & C'). exists b. split; auto. split; [eapply ups; [| |exact Sp']; lia|].
      split; auto. intros X. rewrite (low_open _ _ _ _ _ Sp' eq_refl) in X. discriminate.
    + destruct (Hs _ _ _ _ H) as (G & _). destruct (G (proj1 C)) as (-> & ->). eauto 10.
  - intros q lhs s e s' H s0 a0 A Sp Sk C O. cbn [parse_rhs] in H. bk H.
    destruct (prec_of (tk (ps_tok s))) as [p|] eqn:P.
    2:{ bk H. exists a0. refine (conj A (conj Sp (conj C (conj O _)))). intros ? ?; congruence. }
    destruct (bop_prec _ _ P) as (o & Ko & -> & Bo). rewrite Bo in H. pose proof (strength_range o) as R. destruct (Nat.ltb_spec (strength o) q) as [L|L].
    { bk H. exists a0. refine (conj A (conj Sp (conj C (conj O _)))). intros p Q. rewrite P in Q. injection Q as <-. exact L. }
    do 2 bk H. bk H. apply Hf in E as (b & B & Spb & Cb & Ob). apply bind_ok in H as (r & s3 & E & H).
    assert (Fr : exists b', eats s1 b' s3 /\ spells (S (strength o)) (ps_tbl s1) b' r (ps_tbl s3) /\ calm r (tk (ps_tok s3)) /\ open_ok r (tk (ps_tok s3)) /\ below (S (strength o)) (tk (ps_tok s3))).
    { destruct (prec_of (tk (ps_tok s2))) as [p'|] eqn:P'.
      - cbn [prec_lt] in E. destruct (Nat.ltb_spec (strength o) p').
        + eapply Hr; [exact E|exact B| | |exact Cb|exact Ob].
          * eapply ups; [| |exact Spb]; lia.
          * intros k P1 _. apply bop_prec in P1 as (o' & _ & -> & _). pose proof (strength_range o'). eapply ups; [| |exact Spb]; lia.
        + bk E. exists b. refine (conj B (conj _ (conj Cb (conj Ob _)))); [eapply ups; [| |exact Spb]; lia|].
          intros k Q. rewrite P' in Q. injection Q as <-. lia.
      - cbn [prec_lt] in E. bk E. exists b. refine (conj B (conj _ (conj Cb (conj Ob _)))); [eapply ups; [| |exact Spb]; lia|].
        intros k Q. congruence. }
    destruct Fr as (b' & B' & Spb' & Cb' & Ob' & W).
    assert (Sb : spells (strength o) (ps_tbl s0) (a0 ++ ps_tok s :: b') (EBin o lhs r) (ps_tbl s3)).
    { eapply sp_bin; [| |exact Ko|rewrite T in Spb'; exact Spb'].
      - destruct (ends_open lhs) eqn:X; auto. rewrite (O X) in P. discriminate.
      - apply Sk; auto. }
    eapply Hr in H; [exact H| | | |exact Cb'|exact Ob'].
    + change (ps_tok s :: b') with ([ps_tok s] ++ b'). eapply eats_trans; [exact A|]. eapply eats_trans; eauto.
    + eapply ups; [| |exact Sb]; lia.
    + intros k Q Lk. apply W in Q. eapply ups; [| |exact Sb]; lia.
  - intros e s e' s' H. split.
    { intros N. cbn [parse_suffix] in H. bk H. unfold is_suffix in N. destruct (tk (ps_tok s)); try (injection H as <- <-; auto; fail); exfalso; apply N; auto. }
    intros s0 a0 A Sp C. cbn [parse_suffix] in H. bk H. destruct (tk (ps_tok s)) eqn:K.
    all: try (injection H as <- <-; exists a0; split; [auto|split; [auto|]]; split; [rewrite K; intros [X|[X|X]]; discriminate X|rewrite K; exact C]).
    + do 2 bk H. apply He in E as (b & B & Spb & _). do 2 bk H. eapply Hs in H as (_ & H). eapply H; [| |intros X; discriminate X].
      * eapply eats_trans; [exact A|]. eapply eats_trans; [exact A0|]. eapply eats_trans; [exact B|exact A1].
      * cbn [app]. rewrite T0. rewrite T in Spb. eapply sp_index; eauto.
    + do 3 bk H. eapply Hs in H as (_ & H). eapply H; [| |intros X; discriminate X].
      * eapply eats_trans; [exact A|]. eapply eats_trans; [exact A0|exact A1].
      * cbn [app]. rewrite T0, T. eapply sp_dot; eauto.
    + do 4 bk H. apply Hc in E as (o & b & c & B & Ko & Kc & Spb). eapply Hs in H as (_ & H). eapply H; [| |intros X; discriminate X].
      * eapply eats_trans; [exact A|]. eapply eats_trans; [exact A0|]. eapply eats_trans; [exact A1|exact B].
      * cbn [app]. rewrite T0, T in Spb. eapply sp_arrow; eauto.
  - intros s e s' H. cbn [parse_value] in H. bk H. destruct (tk (ps_tok s)) eqn:K; try discriminate H.
    + (* paren *) do 2 bk H. apply He in E as (a & B & Sp & _). do 3 bk H. exists ([ps_tok s] ++ a ++ [ps_tok s1]). split; [repeat (eapply eats_trans; eauto)|].
      left. split; [|apply not_call; reflexivity]. rewrite T0. rewrite T in Sp. cbn [app]. eapply sp_paren; eauto.
    + (* minus *) do 2 bk H. apply Hf in E as (a & B & Sp & C & O). bk H. exists ([ps_tok s] ++ a). split; [repeat (eapply eats_trans; eauto)|].
      right. rewrite T in Sp. split; [apply sp_minus; auto|split; [exact C|exact O]].
    + (* bang *) do 2 bk H. apply Hf in E as (a & B & Sp & C & O). bk H. exists ([ps_tok s] ++ a). split; [repeat (eapply eats_trans; eauto)|].
      right. rewrite T in Sp. split; [apply sp_bang; auto|split; [exact C|exact O]].
    + (* null *) do 2 bk H. exists [ps_tok s]. split; auto. left. rewrite T. split; [apply sp_null; auto|apply not_call; reflexivity].
    + (* bool *) do 2 bk H. exists [ps_tok s]. split; auto. left. rewrite T. split; [apply sp_bool; auto|apply not_call; reflexivity].
    + (* char *) do 3 bk H. exists [ps_tok s]. split; auto. left. rewrite T. split; [apply sp_char; auto|apply not_call; reflexivity].
    + (* int *) do 3 bk H. exists [ps_tok s]. split; auto. left. rewrite T. split; [apply sp_int; auto|apply not_call; reflexivity].
    + (* float *) do 2 bk H. exists [ps_tok s]. split; auto. left. rewrite T. split; [apply sp_float; auto|apply not_call; reflexivity].
    + (* str *) do 4 bk H. eat. exists [ps_tok s0]. split; auto. left. rewrite T. split; [eapply sp_str; eauto; congruence|apply not_call; reflexivity].
    + (* ident *) do 3 bk H. destruct (tok_eqb (tk (ps_tok s0)) OPENPAREN) eqn:D.
      * bk H. apply Hc in E as (o & a & c & B & Ko & Kc & Sp). bk H. exists ([ps_tok s] ++ o :: a ++ [c]). split; [repeat (eapply eats_trans; eauto)|].
        left. split; [|apply not_call; reflexivity]. rewrite T in Sp. eapply sp_call; eauto.
      * do 2 bk H. eat. exists [ps_tok s]. split; auto. left. rewrite T in M. split; [eapply sp_id; eauto|]. intros _ X. rewrite <- Q, X in D. discriminate D.
    + (* if *) do 2 bk H. apply He in E as (a & A1 & Sp1 & St). bk H. apply He in E as (b & A2 & Sp2 & _). do 3 bk H. apply He in E as (c & A3 & Sp3 & (S1 & S2 & S3)). bk H.
      destruct (spells_first _ _ _ _ _ Sp2) as (y & b' & -> & _). pose proof (eats_hd _ _ _ _ A2) as Y.
      exists ([ps_tok s] ++ a ++ (y :: b') ++ [ps_tok s2] ++ c). split; [repeat (eapply eats_trans; [eassumption|]); eassumption|]. right.
      rewrite T in Sp1. rewrite T0 in Sp3. split; [|split; [split; auto|intros _; apply no_prec; auto]].
      eapply sp_if; eauto. rewrite <- Y. exact St.
    + (* new *) do 5 bk H. apply bind_ok in H as ((ns & es) & s4 & E & H). apply Hn in E as (Kc & _ & a & B & Sp). do 2 bk H.
      eat. eexists. split; [eassumption|]. left. split; [|apply not_call; reflexivity].
      rewrite T2. rewrite T in M. replace (ps_tbl s3) with (ps_tbl s1) in Sp by congruence. eapply sp_new; eauto. congruence.
    + (* cast *) do 3 bk H. apply He in E as (a & B1 & Sp1 & _). do 3 bk H. apply type_sound in E as (b & B2 & Ty). do 2 bk H.
      eapply Hd in H as (f & F & Sf & Ef).
      * exists f. split; [exact F|]. left. split; [exact Sf|apply not_call; auto].
      * do 5 (eapply eats_trans; [eassumption|]); eassumption.
      * cbn [app]. clear Hd He. rewrite T2. replace (ps_tbl s1) with (ps_tbl s) in Sp1 by congruence. replace (ps_tbl s3) with (ps_tbl s2) in Ty by congruence.
        eapply sp_cast; eauto.
      * reflexivity.
  - intros e s e' s' H s0 a0 A Sp N. cbn [parse_dots] in H. bk H. destruct (tok_eqb (tk (ps_tok s)) DOT) eqn:D.
    + apply tok_eqb_eq in D. do 3 bk H. eapply Hd in H; [exact H| | |reflexivity].
      * eapply eats_trans; [exact A|]. eapply eats_trans; [exact A0|exact A1].
      * cbn [app]. rewrite T0, T. eapply sp_dot; eauto.
    + bk H. exists a0. auto.
  - intros s es s' H. cbn [parse_call] in H. bk H. destruct (tok_eqb (tk (ps_tok s)) OPENPAREN) eqn:D; [|discriminate H].
    apply tok_eqb_eq in D. do 2 bk H. apply Ha in E as (Kc & _ & b & B & Spb). do 2 bk H. exists (ps_tok s), b, (ps_tok s1). split; [|split; [auto|split; [auto|]]].
    + change (ps_tok s :: b ++ [ps_tok s1]) with ([ps_tok s] ++ b ++ [ps_tok s1]). eapply eats_trans; [eauto|]. eapply eats_trans; eauto.
    + congruence.
  - intros s es s' H. cbn [parse_args] in H. bk H. destruct (tok_eqb (tk (ps_tok s)) CLOSEPAREN) eqn:D.
    { apply tok_eqb_eq in D. bk H. split; [auto|]. split; [auto|]. exists []. split; [apply eats_refl|constructor]. }
    bk H. apply He in E as (a & A & Sp & _). bk H. apply bind_ok in H as (u & s2 & E & H). bk H. apply Ha in E0 as (K & Z & b & B & Sb). bk H.
    split; [exact K|]. split; [intros X; rewrite X in D; discriminate D|].
    destruct (tok_eqb (tk (ps_tok s0)) COMMA) eqn:C.
    + apply tok_eqb_eq in C. bk E. exists (a ++ [ps_tok s0] ++ b). split; [repeat (eapply eats_trans; [eassumption|]); eassumption|].
      rewrite T in Sb. eapply sa_more; eauto.
    + destruct (tok_eqb (tk (ps_tok s0)) CLOSEPAREN) eqn:C2; [|discriminate E]. bk E. apply tok_eqb_eq in C2. destruct (Z C2) as (-> & ->).
      exists a. split; [exact A|]. apply sa_last. exact Sp.
  - intros s p s' H. cbn [parse_new] in H. bk H. destruct (tok_eqb (tk (ps_tok s)) CLOSECURLY) eqn:D.
    { apply tok_eqb_eq in D. bk H. split; [auto|]. split; [auto|]. exists []. split; [apply eats_refl|constructor]. }
    apply bind_ok in H as (nm & s1 & E1 & H).
    assert (Nm : exists f, eats s f s1 /\ spells_name f nm /\ ps_tbl s1 = ps_tbl s).
    { destruct (tok_eqb (tk (ps_tok s)) DOT) eqn:D1.
      - apply tok_eqb_eq in D1. do 5 bk E1. eat. eexists. split; [eassumption|]. split; [|congruence]. econstructor; eauto.
      - bk E1. exists []. split; [apply eats_refl|]. split; [constructor|auto]. }
    destruct Nm as (f & F & Nf & Tf).
    bk H. apply He in E as (a & A & Sp & _). bk H. apply bind_ok in H as (u & s2 & E & H). apply bind_ok in H as ((ns & es) & s3 & E0 & H).
    apply Hn in E0 as (K & Z & b & B & Sb). bk H.
    split; [exact K|]. split; [intros X; rewrite X in D; discriminate D|]. cbn [fst snd] in *. rewrite Tf in Sp.
    destruct (tok_eqb (tk (ps_tok s0)) CLOSECURLY) eqn:C2.
    + bk E. apply tok_eqb_eq in C2. destruct (Z C2) as (X & ->). injection X as -> ->.
      exists (f ++ a). split; [repeat (eapply eats_trans; [eassumption|]); eassumption|]. rewrite app_nil_r. eapply si_last; eauto.
    + destruct (tok_eqb (tk (ps_tok s0)) COMMA) eqn:C; [|discriminate E]. bk E. apply tok_eqb_eq in C.
      exists (f ++ a ++ [ps_tok s0] ++ b). split; [repeat (eapply eats_trans; [eassumption|]); eassumption|].
      rewrite T in Sb. eapply si_more; eauto.
Qed.
