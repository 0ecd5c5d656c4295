(** * Reading signatures *)
From Verif Require Import Base Token Lexer Values Syntax Symbols Parser Grammar GrammarProofs GrammarSound GrammarStmt GrammarStmtSound GrammarStmtComplete Host BindSpec Props_Stmt.
Local Open Scope nat_scope.
Local Open Scope cm_scope.

Lemma step_start t l e s s1 : at_start t l e s -> next_token s = COk tt s1 -> at_start t (tl l) e s1.
Proof.
  intros (A & B & C & D) N. unfold next_token in N. rewrite C in N. destruct l as [|y [|z l]]; cbn in *.
  - rewrite B in N. destruct e; try contradiction. injection N as <-. repeat split; auto.
  - rewrite B in N. destruct e; try discriminate N. injection N as <-. repeat split; auto.
  - injection N as <-. repeat split; auto.
Qed.
Lemma start_step t l e s : at_start t l e s -> (l = [] \/ tl l <> [] \/ exists x, e = SRepeat x) -> exists s1, next_token s = COk tt s1 /\ at_start t (tl l) e s1.
Proof.
  intros A X. assert (exists s1, next_token s = COk tt s1) as (s1 & N).
  { destruct A as (A & B & C & D). unfold next_token. rewrite C. destruct (tl l) eqn:E; [|eauto]. rewrite B. destruct X as [->|[X|(x & ->)]]; [|congruence|eauto].
    destruct e; try contradiction. eauto. }
  exists s1. split; auto. eapply step_start; eauto.
Qed.
Lemma eats_begins a : forall t l e s s', at_start t l e s -> eats s a s' -> exists n r, l ++ endless n e = a ++ ps_tok s' :: r.
Proof.
  induction a as [|y a IH]; intros t l e s s' A E.
  - apply eats_none in E. assert (Q : ps_tok s' = ps_tok s) by (rewrite E; reflexivity). rewrite Q. destruct A as (_ & _ & _ & D). destruct l as [|z l].
    + destruct e; try contradiction. exists 1, []. cbn. congruence.
    + exists 0, (l ++ endless 0 e). cbn. congruence.
  - apply eats_one in E as (s1 & K & N & E & _). pose proof (step_start _ _ _ _ _ A N) as A1. destruct (IH _ _ _ _ _ A1 E) as (n & r & Q).
    destruct A as (_ & _ & _ & D). destruct l as [|z l].
    + destruct e; try contradiction. exists (S n), r. cbn in *. rewrite Q. congruence.
    + exists n, r. cbn in *. rewrite Q. congruence.
Qed.
Lemma begins_eats a : forall t l e s n y r, at_start t l e s -> l ++ endless n e = a ++ y :: r -> forall T', exists s', eats s a s' /\ ps_tok s' = y /\ ps_tbl s' = T'.
Proof.
  induction a as [|z a IH]; intros t l e s n y r A E T'.
  - exists (retbl s T'). split; [constructor|]. split; [|reflexivity]. destruct A as (_ & _ & _ & D). cbn [retbl ps_tok]. destruct l as [|w l].
    + destruct e; try contradiction. destruct n; cbn in E; [discriminate E|]. congruence.
    + cbn in E. congruence.
  - assert (X : l = [] \/ tl l <> [] \/ exists x, e = SRepeat x).
    { destruct l as [|w [|w' l]]; auto; [|right; left; discriminate]. right. right. destruct e; eauto; cbn in E; destruct a; discriminate E. }
    destruct (start_step _ _ _ _ A X) as (s1 & N & A1).
    assert (exists m, tl l ++ endless m e = a ++ y :: r /\ ps_tok s = z) as (m & Q & K).
    { destruct A as (_ & _ & _ & D). destruct l as [|w l].
      - destruct e; try contradiction. destruct n; cbn in E; [discriminate E|]. exists n. injection E as -> E. auto.
      - exists n. cbn in *. injection E as -> E. auto. }
    destruct (IH _ _ _ _ _ _ _ A1 Q T') as (s' & E' & K' & T1). exists s'. split; [|auto]. rewrite <- K. econstructor; eauto.
Qed.

Lemma sig_args_sound n : forall s gs va s', sig_args n s = COk (gs, va) s' ->
  exists a, eats s a s' /\ spells_sig_args (ps_tbl s) a gs va (ps_tbl s') /\ tk (ps_tok s') = CLOSEPAREN.
Proof.
  induction n as [|n IH]; intros s gs va s' H; [discriminate H|]. cbn [sig_args] in H. bk H.
  destruct (tk (ps_tok s)) eqn:K; try discriminate H.
  all: match type of K with
  | _ = CLOSEPAREN => injection H; intros; subst; exists []; split; [apply eats_refl|split; [constructor|exact K]]
  | _ = COMMA => bk H; apply IH in H as (a & E' & P & C); exists (ps_tok s :: a);
      split; [exact (eats_trans _ _ _ _ _ A E')|split; [|exact C]]; apply sa_comma; auto; rewrite <- T; exact P
  | _ => idtac
  end.
  - (* dots *) apply bind_ok in H as (u & s1 & N & H). apply next_ok in N as (A & T). apply bind_ok in H as ([gs' va'] & s2 & Ea & H). injection H; intros; subst. cbn [fst snd] in *.
    apply IH in Ea as (a & E' & P & C). exists (ps_tok s :: a). split; [exact (eats_trans _ _ _ _ _ A E')|]. split; [|exact C]. eapply sa_dots; eauto. rewrite <- T. exact P.
  - (* type *) apply bind_ok in H as (g & s1 & Et & H). apply bind_ok in H as ([gs' va'] & s2 & Ea & H). injection H; intros; subst. cbn [fst snd] in *.
    apply type_sound in Et as (b & Eb & St). apply IH in Ea as (a & E' & P & C). exists (b ++ a). split; [eapply eats_trans; eauto|]. split; [|exact C]. eapply sa_type; eauto.
Qed.

Lemma sig_args_grow n : forall m, n <= m -> less (sig_args n) (sig_args m).
Proof.
  induction n as [|n IH]; intros m L; [apply less_fuel|]. destruct m as [|m]; [lia|]. cbn [sig_args]. specialize (IH m ltac:(lia)).
  apply less_bind; [apply less_refl|]. intros k. destruct k; try apply less_refl.
  all: try (apply less_bind; [apply less_refl|intros _]; exact IH).
  all: apply less_bind; [apply less_refl|intros ?]; apply less_bind; [exact IH|intros ?; apply less_refl].
Qed.

Lemma sa_head T a gs va T' : spells_sig_args T a gs va T' -> forall x, tk x = CLOSEPAREN -> tk (ahead a x) <> QUESTION.
Proof. intros P x K. inversion P as [|? ? ? ? ? ? Kc|? ? ? ? ? ? Kc|? ? ? ? ? ? ? ? St]; subst; cbn; try congruence. inversion St; subst; cbn; congruence. Qed.

Lemma sig_args_complete T a gs va T' : spells_sig_args T a gs va T' -> forall s s', eats s a s' -> ps_tbl s = T -> ps_tbl s' = T' -> tk (ps_tok s') = CLOSEPAREN ->
  ev sig_args s (gs, va) s'.
Proof.
  induction 1 as [T|T c a gs va T' K P IH|T d a gs va T' K P IH|T a g T1 b gs va T' St P IH]; intros s s' E E1 E2 C.
  - apply eats_end in E; [|congruence]. subst s'. exists 1. intros n L. destruct n; [lia|]. cbn [sig_args]. unfold cbind, last_tok. rewrite C. reflexivity.
  - apply eats_one in E as (s1 & K1 & N & E & T1). destruct (IH s1 s' E ltac:(congruence) E2 C) as (n0 & G).
    exists (S n0). intros n L. destruct n; [lia|]. cbn [sig_args]. unfold cbind at 1, last_tok. rewrite K1, K. unfold cbind. rewrite N. apply G. lia.
  - apply eats_one in E as (s1 & K1 & N & E & T1). destruct (IH s1 s' E ltac:(congruence) E2 C) as (n0 & G).
    exists (S n0). intros n L. destruct n; [lia|]. cbn [sig_args]. unfold cbind at 1, last_tok. rewrite K1, K. unfold cbind. rewrite N, G by lia. reflexivity.
  - apply (eats_mid _ _ _ _ T1) in E as (s1 & Ea & Eb & Et). destruct (IH s1 s' Eb Et E2 C) as (n0 & G).
    assert (Pt : parse_type s = COk g s1). { eapply type_of; eauto. rewrite (ahead_of _ _ _ Eb). eapply sa_head; eauto. }
    assert (K : tk (ps_tok s) = IDENT). { inversion St; subst; apply eats_hd in Ea; congruence. }
    exists (S n0). intros n L. destruct n; [lia|]. cbn [sig_args]. unfold cbind at 1, last_tok. rewrite K. unfold cbind. rewrite Pt, G by lia. reflexivity.
Qed.

Lemma type_of2 T a g T' s s1 : spells_type T a g T' -> eats s a s1 -> ps_tbl s = T -> ps_tbl s1 = T' -> (tk (ps_tok s1) = QUESTION -> length a = 2) ->
  parse_type s = COk g s1.
Proof.
  intros St E T0 T1 Q. destruct (tok_eqb (tk (ps_tok s1)) QUESTION) eqn:D.
  2:{ eapply type_of; eauto. intros X. rewrite X in D. discriminate D. }
  apply tok_eqb_eq in D. specialize (Q D). unfold parse_type, expect, cbind, last_tok, cret. inversion St as [? t x g0 ? Kt Lt Tg|? t x g0 Tm q g' ? Kt Lt Tg Nv Kq Nu]; subst; [discriminate Q|].
  one E. one E. rewrite K, Kt. change (tok_eqb IDENT IDENT) with true. cbv beta iota. unfold lexeme. rewrite K, Lt. unfold on_tbl. rewrite Tg. fold (retbl s Tm).
  rewrite (next_retbl _ _ Tm N). cbn [retbl ps_tok]. rewrite K0, Kq. change (tok_eqb QUESTION QUESTION) with true. cbv beta iota. destruct (tag_eq_dec g0 GVoid); [contradiction|].
  cbv beta iota. cbn [ps_tbl retbl]. rewrite Nu. change (mkPst (ps_tbl s1) (ps_toks (retbl s0 Tm)) (ps_end (retbl s0 Tm)) (ps_tok (retbl s0 Tm))) with (retbl s0 (ps_tbl s1)). rewrite (next_retbl _ _ (ps_tbl s1) N0).
  apply eats_none in E. rewrite E. reflexivity.
Qed.
Lemma type_sound2 s g s' : parse_type s = COk g s' -> exists a, eats s a s' /\ spells_type (ps_tbl s) a g (ps_tbl s') /\ (tk (ps_tok s') = QUESTION -> length a = 2).
Proof.
  unfold parse_type. intros H. do 5 bk H. destruct (tok_eqb (tk (ps_tok s1)) QUESTION) eqn:Q1.
  - apply tok_eqb_eq in Q1. destruct (tag_eq_dec x1 GVoid); [discriminate H|]. do 3 bk H. eat. eexists. split; [eassumption|]. split; [|reflexivity].
    replace (ps_tbl s') with (ps_tbl s2) by congruence. eapply st_opt; try eassumption; congruence.
  - bk H. eat. eexists. split; [eassumption|]. split; [rewrite T; eapply st_name; [| |exact M]; congruence|]. intros X. rewrite X in Q1. discriminate Q1.
Qed.

Lemma signature_sound n callee s0 s s' : bind_sig n callee s0 = COk tt s' -> next_token s0 = COk tt s ->
  exists a name gs va ret s1, eats s a s1 /\ signature (ps_tbl s) a (tk (ps_tok s1)) name gs va ret (ps_tbl s1) /\
    bind_function name gs va ret callee (ps_tbl s1) = COk tt (ps_tbl s').
Proof.
  unfold bind_sig. intros H N. unfold cbind at 1 in H. rewrite N in H. clear N. unfold cbind at 1, last_tok at 1 in H.
  destruct (tok_eqb (tk (ps_tok s)) IDENT) eqn:K; [|discriminate H]. cbn [negb] in H. apply tok_eqb_eq in K.
  apply bind_ok in H as (name & sx & Lx & H). apply lexeme_ok in Lx as (Lx & ->).
  apply bind_ok in H as (u & s1 & N & H). apply next_ok in N as (A & T). unfold cbind at 1, last_tok at 1 in H.
  destruct (tok_eqb (tk (ps_tok s1)) OPENPAREN) eqn:K1; cbn [negb] in H.
  2:{ apply tbl_ok in H as (M & R). exists [ps_tok s], name, [], true, GAny, s1. split; [exact A|]. split; [|exact M]. rewrite T. apply sg_name; auto.
      intros Q. rewrite Q in K1. discriminate K1. }
  apply tok_eqb_eq in K1. apply bind_ok in H as (u' & s2 & N & H). apply next_ok in N as (A2 & T2).
  apply bind_ok in H as ([gs va] & s3 & Ea & H). apply sig_args_sound in Ea as (a & Ea & Sa & C). cbn [fst snd] in H.
  apply bind_ok in H as (u'' & s4 & N & H). apply next_ok in N as (A4 & T4). unfold cbind at 1, last_tok at 1 in H.
  rewrite T2, T in Sa.
  destruct (tok_eqb (tk (ps_tok s4)) COLON) eqn:K4.
  - apply tok_eqb_eq in K4. apply bind_ok in H as (ret & s5 & X & H). apply bind_ok in X as (w & s6 & N & X). apply next_ok in N as (A6 & T6). unfold cbind at 1, last_tok at 1 in X.
    destruct (tok_eqb (tk (ps_tok s6)) IDENT); [|discriminate X].
    apply type_sound2 in X as (b & Eb & Sb & Qb). apply tbl_ok in H as (M & R).
    exists (ps_tok s :: ps_tok s1 :: a ++ ps_tok s3 :: ps_tok s4 :: b), name, gs, va, ret, s5. split; [|split; [|exact M]].
    + pose proof (eats_trans _ _ _ _ _ A (eats_trans _ _ _ _ _ A2 (eats_trans _ _ _ _ _ Ea (eats_trans _ _ _ _ _ A4 (eats_trans _ _ _ _ _ A6 Eb))))) as Z. exact Z.
    + eapply sg_result; eauto. rewrite <- T4, <- T6. exact Sb.
  - apply bind_ok in H as (ret & s5 & X & H). injection X; intros; subst. apply tbl_ok in H as (M & R).
    exists (ps_tok s :: ps_tok s1 :: a ++ [ps_tok s3]), name, gs, va, GAny, s5. split; [|split; [|exact M]].
    + exact (eats_trans _ _ _ _ _ A (eats_trans _ _ _ _ _ A2 (eats_trans _ _ _ _ _ Ea A4))).
    + rewrite T4. eapply sg_args; eauto. intros X1. rewrite X1 in K4. discriminate K4.
Qed.

Lemma signature_complete callee a k name gs va ret T T1 s0 s s1 : signature T a k name gs va ret T1 -> next_token s0 = COk tt s -> eats s a s1 ->
  ps_tbl s = T -> ps_tbl s1 = T1 -> tk (ps_tok s1) = k -> exists n0, forall n, n0 <= n -> bind_sig n callee s0 = on_tbl (bind_function name gs va ret callee) s1.
Proof.
  intros Sg N E E0 E1 K.
  inversion Sg as [? t x ? Kt Lt Nk|? t x o b c ? ? ? ? Kt Lt Ko Kc Sa Nk|? t x o b c l d ? ? ? Tm ? ? Kt Lt Ko Kc Sa Kl St Nk]; subst.
  - exists 0. intros n _. one E. unfold bind_sig. unfold cbind at 1. rewrite N. unfold cbind at 1, last_tok at 1. rewrite K, Kt. change (tok_eqb IDENT IDENT) with true. cbn [negb].
    unfold cbind at 1, lexeme. rewrite K, Lt. unfold cbind at 1. rewrite N0. unfold cbind at 1, last_tok at 1. apply eats_end in E; [|congruence]. subst s2.
    destruct (tok_eqb (tk (ps_tok s1)) OPENPAREN) eqn:D; [apply tok_eqb_eq in D; congruence|]. reflexivity.
  - one E. one E. apply (eats_mid _ _ _ _ (ps_tbl s1)) in E as (s4 & Ea & Eb & Et).
    assert (C : tk (ps_tok s4) = CLOSEPAREN) by (apply eats_hd in Eb; congruence).
    destruct (sig_args_complete _ _ _ _ _ Sa _ _ Ea ltac:(congruence) Et C) as (n0 & G). one Eb. apply eats_end in Eb; [|congruence]. subst s5.
    exists n0. intros n Ln. unfold bind_sig. unfold cbind at 1. rewrite N. unfold cbind at 1, last_tok at 1. rewrite K, Kt. change (tok_eqb IDENT IDENT) with true. cbn [negb].
    unfold cbind at 1, lexeme. rewrite K, Lt. unfold cbind at 1. rewrite N0. unfold cbind at 1, last_tok at 1. rewrite K0, Ko. change (tok_eqb OPENPAREN OPENPAREN) with true. cbn [negb].
    unfold cbind at 1. rewrite N1. unfold cbind at 1. rewrite (G n Ln). unfold cbind at 1. rewrite N2. unfold cbind at 1, last_tok at 1.
    destruct (tok_eqb (tk (ps_tok s1)) COLON) eqn:D; [apply tok_eqb_eq in D; congruence|]. reflexivity.
  - one E. one E. apply (eats_mid _ _ _ _ Tm) in E as (s4 & Ea & Eb & Et).
    assert (C : tk (ps_tok s4) = CLOSEPAREN) by (apply eats_hd in Eb; congruence).
    destruct (sig_args_complete _ _ _ _ _ Sa _ _ Ea ltac:(congruence) Et C) as (n0 & G). one Eb. one Eb.
    assert (Hd : tk (ps_tok s6) = IDENT) by (inversion St; subst; apply eats_hd in Eb; congruence).
    exists n0. intros n Ln. unfold bind_sig. unfold cbind at 1. rewrite N. unfold cbind at 1, last_tok at 1. rewrite K, Kt. change (tok_eqb IDENT IDENT) with true. cbn [negb].
    unfold cbind at 1, lexeme. rewrite K, Lt. unfold cbind at 1. rewrite N0. unfold cbind at 1, last_tok at 1. rewrite K0, Ko. change (tok_eqb OPENPAREN OPENPAREN) with true. cbn [negb].
    unfold cbind at 1. rewrite N1. unfold cbind at 1. rewrite (G n Ln). unfold cbind at 1. rewrite N2. unfold cbind at 1, last_tok at 1.
    rewrite K2, Kl. change (tok_eqb COLON COLON) with true. cbv beta iota.
    unfold cbind at 1. unfold cbind at 1. rewrite N3. unfold cbind at 1, last_tok. rewrite Hd. change (tok_eqb IDENT IDENT) with true. cbv beta iota.
    rewrite (type_of2 Tm d ret (ps_tbl s1) s6 s1 St Eb ltac:(congruence) eq_refl Nk). reflexivity.
Qed.

Lemma bind_grow callee n m : n <= m -> less (bind_sig n callee) (bind_sig m callee).
Proof.
  intros L. unfold bind_sig. apply less_bind; [apply less_refl|intros _]. apply less_bind; [apply less_refl|intros k]. destruct (negb (tok_eqb k IDENT)); [apply less_refl|].
  apply less_bind; [apply less_refl|intros nm]. apply less_bind; [apply less_refl|intros _]. apply less_bind; [apply less_refl|intros k']. destruct (negb (tok_eqb k' OPENPAREN)); [apply less_refl|].
  apply less_bind; [apply less_refl|intros _]. apply less_bind; [apply sig_args_grow; exact L|intros r]. apply less_refl.
Qed.

(** ** From the text *)
Lemma host_sound n sig callee T T' : bind_host n sig callee T = COk tt T' ->
  exists a y name gs va ret T1, begins sig a y /\ signature T a (tk y) name gs va ret T1 /\ bind_function name gs va ret callee T1 = COk tt T'.
Proof.
  unfold bind_host. intros H. destruct (bind_sig n callee (start_parse T sig)) as [u s'|s'| | | |] eqn:B; try discriminate H. injection H as -> <-.
  assert (exists s, next_token (start_parse T sig) = COk tt s) as (s & N).
  { unfold bind_sig, cbind at 1 in B. destruct (next_token (start_parse T sig)) as [[] s| | | | |]; try discriminate B. eauto. }
  pose proof (starts_at _ _ _ _ N) as A. destruct (signature_sound _ _ _ _ _ B N) as (a & name & gs & va & ret & s1 & E & Sg & Bf).
  destruct (eats_begins _ _ _ _ _ _ A E) as (m & r & Q). exists a, (ps_tok s1), name, gs, va, ret, (ps_tbl s1). split; [exists m, r; exact Q|]. split; [|exact Bf].
  rewrite <- (proj1 A). exact Sg.
Qed.

Lemma host_complete sig callee T a y name gs va ret T1 : begins sig a y -> signature T a (tk y) name gs va ret T1 ->
  exists n0, forall n, n0 <= n -> bind_host n sig callee T = bind_function name gs va ret callee T1.
Proof.
  intros (m & r & Q) Sg.
  assert (exists s, next_token (start_parse T sig) = COk tt s) as (s & N).
  { unfold next_token, start_parse. destruct (lex_all sig) as [l e]. cbn [fst snd] in *. destruct l as [|w l]; [|cbn; eauto]. destruct e; cbn; eauto; destruct a; discriminate Q. }
  pose proof (starts_at _ _ _ _ N) as A. destruct (begins_eats _ _ _ _ _ _ _ _ A Q T1) as (s1 & E & K & Et).
  assert (Sg' : signature (ps_tbl s) a (tk (ps_tok s1)) name gs va ret (ps_tbl s1)) by (rewrite Et, K, (proj1 A); exact Sg).
  destruct (signature_complete callee _ _ _ _ _ _ _ _ _ _ _ Sg' N E eq_refl eq_refl eq_refl) as (n0 & G). exists n0. intros n L. unfold bind_host. rewrite (G n L). unfold on_tbl. rewrite Et.
  destruct (bind_function name gs va ret callee T1); reflexivity.
Qed.

Lemma host_grow n m sig callee T T' : bind_host n sig callee T = COk tt T' -> n <= m -> bind_host m sig callee T = COk tt T'.
Proof.
  unfold bind_host. intros H L. destruct (bind_grow callee n m L (start_parse T sig)) as [X|X]; rewrite X in H; [discriminate H|exact H].
Qed.
