(** * Every statement the parser builds is spelled by the tokens it consumed *)
From Verif Require Import Base Token Lexer Values Syntax Symbols TableInv Parser Grammar GrammarProofs GrammarSound GrammarStmt.
Local Open Scope nat_scope.

Lemma const_ok e k : const_of e = Some k <-> constant e k.
Proof. split; [destruct e; try discriminate; intros [= <-]; constructor|intros []; reflexivity]. Qed.
Local Open Scope cm_scope.

Lemma line_ok s k s1 : the_line s = COk k s1 -> k = tk_line (ps_tok s) /\ s1 = s.
Proof. intros [= <- <-]. auto. Qed.
Lemma the_tbl_ok s k s1 : the_tbl s = COk k s1 -> k = ps_tbl s /\ s1 = s.
Proof. destruct s. intros [= <- <-]. auto. Qed.
Lemma mod_ok f s u s1 : mod_tbl f s = COk u s1 -> s1 = retbl s (f (ps_tbl s)).
Proof. intros [= _ <-]. reflexivity. Qed.
Ltac bs H := match type of H with
  | cbind _ _ _ = COk _ _ => let x := fresh "x" in let s := fresh "s" in let E := fresh "E" in apply bind_ok in H as (x & s & E & H); bs E
  | the_line _ = COk _ _ => apply line_ok in H as (-> & ->)
  | the_tbl _ = COk _ _ => apply the_tbl_ok in H as (-> & ->)
  | mod_tbl _ _ = COk _ _ => apply mod_ok in H; subst
  | on_tbl _ _ = COk _ _ => let M := fresh "M" in let R := fresh "R" in apply tbl_ok in H as (M & R); rewrite R in *; clear R; cbn [ps_tbl ps_tok retbl] in *
  | _ => bk H
  end.

Lemma ahead_of s b s' : eats s b s' -> ps_tok s = ahead b (ps_tok s').
Proof. intros E. inversion E; subst; reflexivity. Qed.

Lemma eats_back s s1 t a s' : s1 = retbl s t -> eats s1 a s' -> eats s a s'.
Proof. intros -> E. pose proof (eats_left _ _ _ E (ps_tbl s)) as X. change (retbl (retbl s t) (ps_tbl s)) with (retbl s (ps_tbl s)) in X. rewrite retbl_self in X. exact X. Qed.

Lemma params_sound n : forall s ps s', parse_params n s = COk ps s' -> tk (ps_tok s') = CLOSEPAREN /\
  (tk (ps_tok s) = CLOSEPAREN -> ps = [] /\ s' = s) /\
  exists a, eats s a s' /\ spells_params (ps_tbl s) a ps (ps_tbl s').
Proof.
  induction n as [|n IH]; intros s ps s' H; [discriminate|]. cbn [parse_params] in H. bs H.
  destruct (tok_eqb (tk (ps_tok s)) CLOSEPAREN) eqn:K0.
  - apply tok_eqb_eq in K0. bs H. split; auto. split; auto. exists []. split; [apply eats_refl|constructor].
  - do 6 bs H. apply type_sound in E as (a & Aa & St). bs H. apply bind_ok in H as (u & s4 & E & H).
    split; [|split; [intros X; rewrite X in K0; discriminate|]].
    + destruct (tok_eqb (tk (ps_tok s2)) CLOSEPAREN) eqn:Kc; [|destruct (tok_eqb (tk (ps_tok s2)) COMMA) eqn:Km; [|discriminate E]]; bs E; bs H; apply IH in E as (? & ?); bs H; auto.
    + destruct (tok_eqb (tk (ps_tok s2)) CLOSEPAREN) eqn:Kc.
      * apply tok_eqb_eq in Kc. bs E. bs H. apply IH in E as (_ & G & _). destruct (G Kc) as (-> & ->). bs H.
        eat. eexists. split; [eassumption|]. eapply pa_last; eauto. congruence.
      * destruct (tok_eqb (tk (ps_tok s2)) COMMA) eqn:Km; [|discriminate E]. apply tok_eqb_eq in Km. bs E. bs H. apply IH in E as (_ & _ & b & B & Sb). bs H.
        eat. eexists. split; [eassumption|]. eapply pa_more; eauto; congruence.
Qed.

Lemma declare_params_ok n : forall ps s u s', declare_params n ps s = COk u s' -> declares_params n (ps_tbl s) ps (ps_tbl s') /\ s' = retbl s (ps_tbl s').
Proof.
  induction ps as [|[x g] ps IH]; intros s u s' H; cbn [declare_params] in H.
  - bs H. split; [constructor|symmetry; apply retbl_self].
  - apply bind_ok in H as (w & s1 & E & H). apply tbl_ok in E as (M & R). destruct w. apply IH in H as (A & B). split; [econstructor; eauto|]. rewrite B, R. reflexivity.
Qed.

Lemma use_args_sound n : forall s xs s', parse_use_args n s = COk xs s' -> tk (ps_tok s') = CLOSEPAREN /\ ps_tbl s' = ps_tbl s /\
  exists a, eats s a s' /\ spells_use_args a xs.
Proof.
  induction n as [|n IH]; intros s xs s' H; [discriminate|]. cbn [parse_use_args] in H. bs H.
  destruct (tok_eqb (tk (ps_tok s)) CLOSEPAREN) eqn:K0.
  - apply tok_eqb_eq in K0. bs H. split; auto. split; auto. exists []. split; [apply eats_refl|constructor].
  - do 4 bs H. apply bind_ok in H as (u & s4 & E & H).
    assert (X : exists c, eats s0 c s4 /\ ps_tbl s4 = ps_tbl s0 /\ (c = [] \/ exists m, c = [m] /\ tk m = COMMA)).
    { destruct (tok_eqb (tk (ps_tok s0)) COMMA) eqn:Km; bs E.
      - apply tok_eqb_eq in Km. eexists. split; [exact A0|]. split; auto. right. eauto.
      - exists []. split; [apply eats_refl|auto]. }
    destruct X as (c & C & Tc & Sc). bs H. apply IH in E0 as (Kc & Tb & b & B & Sb). bs H. split; auto. split; [congruence|].
    eat. eexists. split; [eassumption|]. eapply ua_more; eauto.
Qed.

Lemma sp6_id T a y r T' : spells 6 T a (EId y r) T' -> exists t, a = [t] /\ tk t = IDENT /\ tk_lexeme t = Some y /\ reference_variable y T = COk r T'.
Proof.
  intros H. remember 6 as p. remember (EId y r) as e. destruct H; try discriminate; subst p.
  subst e. match goal with X : spells 7 _ _ _ _ |- _ => remember 7 as p; remember (EId y r) as e; destruct X; try discriminate; subst end; try lia; eauto.
  match goal with X : EId _ _ = EId _ _ |- _ => injection X as -> -> end. eauto.
Qed.
Lemma ref_same x T r T' : reference_variable x T = COk r T' -> T' = T.
Proof.
  unfold reference_variable. destruct (tb_func T); [|intros [= _ <-]; auto]. destruct (sym_at T n) as [[? ? []]|]; try discriminate.
  destruct (find_index _ _ _); [intros [= _ <-]; auto|]. destruct (find_index _ _ _); intros [= _ <-]; auto.
Qed.

Lemma sp_first : forall p T a e T', spells p T a e T' -> exists x a', a = x :: a' /\
  match tk x with NULL | BOOL | IDENT | MINUS | BANG | CHAR | INT | FLOAT | STRING | OPENPAREN | NEW | CAST | IF => True | _ => False end.
Proof.
  apply (spells_mind (fun p T a e T' => exists x a', a = x :: a' /\
    match tk x with NULL | BOOL | IDENT | MINUS | BANG | CHAR | INT | FLOAT | STRING | OPENPAREN | NEW | CAST | IF => True | _ => False end) (fun _ _ _ _ => True) (fun _ _ _ _ _ => True)); intros; auto;
    repeat match goal with H : exists x a', ?a = x :: a' /\ _ |- _ => destruct H as (? & ? & -> & ?) end; cbn [app];
    try (eexists _, _; split; [reflexivity|]; first [assumption|match goal with H : tk ?t = _ |- context [tk ?t] => rewrite H; exact I end]; fail).
Qed.

Definition ssound (n : nat) : Prop :=
  (forall s st s', parse_stmt n s = COk st s' -> exists a, eats s a s' /\ sentence (ps_tbl s) a (ps_tok s') st (ps_tbl s')) /\
  (forall s ss s', parse_block n s = COk ss s' -> tk (ps_tok s') = CLOSECURLY /\ exists a, eats s a s' /\ sentences (ps_tbl s) a (ps_tok s') ss (ps_tbl s')).

Lemma hd_eats s a s' x : eats s a s' -> a <> [] -> hd x a = ps_tok s.
Proof. intros E N. destruct a; [congruence|]. symmetry. apply (eats_hd _ _ _ _ E). Qed.
Lemma sp_nonempty p T a e T' : spells p T a e T' -> a <> [].
Proof. intros H. apply sp_first in H as (? & ? & -> & _). discriminate. Qed.

Lemma simple_sound n s st s' : parse_simple n s = COk st s' ->
  match tk (ps_tok s) with IF => False | _ => True end ->
  exists a, eats s a s' /\ sentence (ps_tbl s) a (ps_tok s') st (ps_tbl s').
Proof.
  unfold parse_simple. intros H NI. bs H. apply bind_ok in H as (lhs & s1 & E & H).
  apply (so_factor _ (exprs_sound n)) in E as (a & A & Sp & C & O).
  assert (Hd : hd (mkTok TEOF 0 1 None false 0 0) a = ps_tok s) by (apply (hd_eats _ _ _ _ A); apply (sp_nonempty _ _ _ _ _ Sp)).
  assert (Hx : hd (ps_tok s') a = ps_tok s) by (apply (hd_eats _ _ _ _ A); apply (sp_nonempty _ _ _ _ _ Sp)).
  assert (HH : head_of (ps_tbl s) a lhs (ps_tbl s1) (tk (ps_tok s1))).
  { split; [exact Sp|]. rewrite Hd. split; [intros X; rewrite X in NI; exact NI|]. destruct C as (C1 & C2). split; auto. split; auto.
    intros X. apply no_prec. apply O; auto. }
  assert (Hc : (exists f es, lhs = ECall f es) \/ ~ is_call lhs).
  { destruct lhs; try (right; intros (? & ? & X); discriminate X). left. eauto. }
  destruct Hc as [(f & es & ->)|NC].
  { bs H. exists a. split; [exact A|]. rewrite <- Hx. apply se_call. exact HH. }
  assert (H' : (op <- last_tok ;; line <- the_line ;;
      ' (lhs', op') <-
        (if tok_eqb op DECLARE || tok_eqb op COLON then
           match lhs with
           | EId name _ =>
               tb <- the_tbl ;;
               r <- on_tbl (match tb_func tb with
                            | Some _ => declare_local name
                            | None => declare_global name end) ;;
               if tok_eqb op COLON then
                 next_token ;;;
                 g <- parse_type ;;
                 on_tbl (set_var_tag r g) ;;;
                 expect EQUAL ;;;
                 cret (EId name (Some r), EQUAL)
               else cret (EId name (Some r), op)
           | _ => cfail
           end
         else cret (lhs, op)) ;;
      match prec_of op' with
      | Some _ => cfail
      | None =>
          next_token ;;;
          rhs <- parse_expr n ;;
          (if tok_eqb op' DECLARECONST then
             match lhs' with
             | EId name _ =>
                 match const_of rhs with
                 | Some c => on_tbl (declare_const name c)
                 | None => cfail
                 end
             | _ => cfail
             end
           else cret tt) ;;;
          cret (SAsg line op' lhs' rhs)
      end) s1 = COk st s').
  { destruct lhs; try exact H. destruct NC. eexists _, _. reflexivity. }
  clear H. rename H' into H. do 2 bs H.
  apply bind_ok in H as ([l' op'] & s2 & E & H).
  assert (Fin : forall l op s2, (match prec_of op with
      | Some _ => cfail
      | None =>
          next_token ;;;
          rhs <- parse_expr n ;;
          (if tok_eqb op DECLARECONST then
             match l with
             | EId name _ =>
                 match const_of rhs with
                 | Some c => on_tbl (declare_const name c)
                 | None => cfail
                 end
             | _ => cfail
             end
           else cret tt) ;;;
          cret (SAsg (tk_line (ps_tok s1)) op l rhs)
      end) s2 = COk st s' -> prec_of op = None /\ exists b e T2, eats s2 (ps_tok s2 :: b) s' /\ spells 0 (ps_tbl s2) b e T2 /\ stops e (tk (ps_tok s')) /\
        st = SAsg (tk_line (ps_tok s1)) op l e /\
        (if tok_eqb op DECLARECONST then exists y r k, l = EId y r /\ constant e k /\ declare_const y k T2 = COk tt (ps_tbl s') else T2 = ps_tbl s')).
  { clear H E. intros l op s3 H. destruct (prec_of op) eqn:P; [discriminate H|]. split; auto.
    bs H. apply bind_ok in H as (e & s5 & E & H). apply (so_expr _ (exprs_sound n)) in E as (b & B & Sb & St).
    apply bind_ok in H as (u & s6 & E & H). bs H. exists b, e, (ps_tbl s5). destruct (tok_eqb op DECLARECONST) eqn:D.
    - destruct l; try discriminate E. destruct (const_of e) eqn:Ce; [|discriminate E]. apply const_ok in Ce. apply tbl_ok in E as (M & R). destruct u.
      split; [rewrite R; apply eats_right; change (ps_tok s3 :: b) with ([ps_tok s3] ++ b); eapply eats_trans; eauto|].
      split; [rewrite <- T; exact Sb|]. split; [rewrite R; exact St|]. split; auto. eauto 10.
    - bs E. split; [change (ps_tok s3 :: b) with ([ps_tok s3] ++ b); eapply eats_trans; eauto|]. split; [rewrite <- T; exact Sb|]. auto. }
  destruct (tok_eqb (tk (ps_tok s1)) DECLARE || tok_eqb (tk (ps_tok s1)) COLON) eqn:D.
  - destruct lhs as [ | | | | | |y r| | | | | | | | | ]; try discriminate E.
    apply sp6_id in Sp as (t & -> & Kt & Lt & Rv). pose proof (ref_same _ _ _ _ Rv) as Same.
    bs E. apply bind_ok in E as (v & s3 & Ev & E). apply tbl_ok in Ev as (M & R).
    assert (Dc : declares (ps_tbl s) y v (ps_tbl s3)) by (unfold declares; rewrite Same in M; destruct (tb_func (ps_tbl s)); exact M).
    assert (Rv' : reference_variable y (ps_tbl s) = COk r (ps_tbl s)) by (rewrite Same in Rv; exact Rv).
    destruct (tok_eqb (tk (ps_tok s1)) COLON) eqn:Kc.
    + apply tok_eqb_eq in Kc. bs E. apply bind_ok in E as (g & s5 & Eg & E). apply type_sound in Eg as (b & B & Sb).
      apply bind_ok in E as (u & s6 & Eu & E). apply tbl_ok in Eu as (Mu & Ru). destruct u. do 2 bs E.
      destruct (Fin (EId y (Some v)) EQUAL _ H) as (_ & c & e & T2 & Ec & Sc & Stp & -> & Same2). change (tok_eqb EQUAL DECLARECONST) with false in Same2. cbv iota in Same2. subst T2.
      exists ([t] ++ [ps_tok s3] ++ b ++ ps_tok s2 :: c). split.
      { eapply eats_trans; [exact A|]. eapply eats_trans; [exact (eats_back _ _ _ _ _ R A0)|].
        eapply eats_trans; [exact B|]. exact (eats_back _ _ _ _ _ Ru Ec). }
      replace (ps_tok s1) with (ps_tok s3) by (rewrite R; reflexivity). replace (ps_tok s1) with (ps_tok s3) in Kc by (rewrite R; reflexivity). cbn [app].
      eapply se_typed; eauto. rewrite <- T; exact Sb.
    + rewrite orb_false_r in D. apply tok_eqb_eq in D. bs E.
      destruct (Fin (EId y (Some v)) _ _ H) as (_ & c & e & T2 & Ec & Sc & Stp & -> & Same2). rewrite D in Same2 |- *. change (tok_eqb DECLARE DECLARECONST) with false in Same2. cbv iota in Same2. subst T2.
      exists ([t] ++ ps_tok s1 :: c). split.
      { eapply eats_trans; [exact A|]. replace (ps_tok s1) with (ps_tok s2) by (rewrite R; reflexivity). exact (eats_back _ _ _ _ _ R Ec). }
      cbn [app]. eapply se_declare; eauto.
  - bs E. apply orb_false_iff in D as (D1 & D2).
    destruct (Fin _ _ _ H) as (P & c & e & T2 & Ec & Sc & Stp & -> & Same2).
    exists (a ++ ps_tok s2 :: c). split; [eapply eats_trans; eauto|].
    assert (Nd : tk (ps_tok s2) <> DECLARE) by (intros X; rewrite X in D1; discriminate).
    assert (Nc : tk (ps_tok s2) <> COLON) by (intros X; rewrite X in D2; discriminate).
    destruct (tok_eqb (tk (ps_tok s2)) DECLARECONST) eqn:Dc.
    + apply tok_eqb_eq in Dc. destruct Same2 as (y & r & k & -> & Ck & Dk). rewrite Dc in HH |- *. eapply se_const; eauto.
    + subst T2. apply se_assign with (T1 := ps_tbl s2); auto; [apply no_prec; auto|]. intros X. rewrite X in Dc. discriminate.
Qed.

Lemma use_sound n line s st s' : parse_use n line s = COk st s' -> tk (ps_tok s) = USE -> ps_tbl s' = ps_tbl s /\
  exists t m o a args c b y, eats s (ps_tok s :: t :: o :: a ++ c :: b) s' /\ tk t = IDENT /\ tk_lexeme t = Some m /\ tk o = OPENPAREN /\
    spells_use_args a args /\ tk c = CLOSEPAREN /\ spells_as b (ps_tok s') y /\ st = SUse line m args y.
Proof.
  unfold parse_use. intros H U. do 4 bs H. apply bind_ok in H as (args & s3 & E & H). apply use_args_sound in E as (Kc & Ta & a & A' & Sa). do 2 bs H.
  assert (W : forall b s5, eats s4 b s5 -> eats s (ps_tok s :: ps_tok s0 :: ps_tok s1 :: a ++ ps_tok s3 :: b) s5).
  { intros b s5 B. apply (eats_trans _ [ps_tok s] _ _ _ A). apply (eats_trans _ [ps_tok s0] _ _ _ A0). apply (eats_trans _ [ps_tok s1] _ _ _ A1).
    apply (eats_trans _ a _ _ _ A'). apply (eats_trans _ [ps_tok s3] _ _ _ A2 B). }
  destruct (tok_eqb (tk (ps_tok s4)) IDENT) eqn:KI.
  - apply tok_eqb_eq in KI. apply bind_ok in H as (w & s9 & E & H). bs E. destruct (text_eqb w (text_of "as")) eqn:Kas.
    + apply text_eqb_eq in Kas. subst w. do 4 bs H. split; [congruence|]. eexists _, _, _, _, _, _, [ps_tok s4; ps_tok s5], _.
      split; [apply W; apply (eats_trans _ [ps_tok s4] _ _ _ A3 A4)|]. repeat (split; [eassumption|]). split; [|reflexivity]. eapply as_some; eauto.
    + bs H. split; [congruence|]. eexists _, _, _, _, _, _, [], None. split; [apply W; apply eats_refl|]. repeat (split; [eassumption|]). split; [|reflexivity].
      constructor. intros _. eexists. split; [eassumption|]. intros ->. rewrite text_eqb_refl in Kas. discriminate.
  - bs H. split; [congruence|]. eexists _, _, _, _, _, _, [], None. split; [apply W; apply eats_refl|]. repeat (split; [eassumption|]). split; [|reflexivity].
    constructor. intros X. rewrite X in KI. discriminate.
Qed.

Lemma return_sound n line s st s' f : (tb1 <- the_tbl ;;
                match sym_at tb1 f with
                | Some (mkSym _ _ (SyFunc _ _ _ (Some g))) =>
                    if tag_eq_dec g GVoid then cfail
                    else e <- parse_expr n ;; cret (SReturn line (Some e))
                | _ => cub
                end) s = COk st s' ->
  exists a e i nm ix args locals g, sym_at (ps_tbl s) f = Some (mkSym i nm (SyFunc ix args locals (Some g))) /\ g <> GVoid /\
    eats s a s' /\ spells 0 (ps_tbl s) a e (ps_tbl s') /\ stops e (tk (ps_tok s')) /\ st = SReturn line (Some e).
Proof.
  intros H. bs H. destruct (sym_at (ps_tbl s) f) as [[i nm [| |ix args locals [g|]| | | | | ]]|] eqn:Sy; try discriminate H.
  destruct (tag_eq_dec g GVoid); [discriminate H|]. apply bind_ok in H as (e & s3 & E & H). apply (so_expr _ (exprs_sound n)) in E as (a & A & Sp & St). bs H.
  exists a, e, i, nm, ix, args, locals, g. auto 10.
Qed.

Lemma sentence_nonempty T a x st T' : sentence T a x st T' -> a <> [].
Proof. intros H. destruct H; try discriminate; match goal with X : head_of _ ?a _ _ _ |- _ => destruct X as (X & _); apply sp_nonempty in X; destruct a; [congruence|discriminate] end. Qed.

Theorem stmts_sound n : ssound n.
Proof.
  induction n as [|n (Hs & Hb)]; [split; intros; discriminate|]. split.
  - intros s st s' H. cbn [parse_stmt] in H. bs H.
    destruct (tk (ps_tok s)) eqn:K; try (apply (simple_sound _ _ _ _ H); rewrite K; exact I).
    + (* { *) do 3 bs H. apply bind_ok in H as (ss & s2 & E & H). apply Hb in E as (Kc & a & A2 & Sa). cbn [ps_tbl retbl] in Sa. bs H.
      apply bind_ok in H as (u & s4 & E & H). apply tbl_ok in E as (M & R). destruct u. bs H.
      exists (ps_tok s :: a ++ [ps_tok s2]). split.
      * rewrite R. apply eats_right. apply (eats_trans _ [ps_tok s] _ _ _ A). apply (eats_trans _ a _ _ _ (eats_back _ _ _ _ _ eq_refl A2) A0).
      * rewrite T0 in M. rewrite T in Sa. eapply se_block; eauto.
    + (* if *) do 2 bs H. apply bind_ok in H as (c & s2 & E & H). apply (so_expr _ (exprs_sound n)) in E as (a & A1 & Sa & St).
      apply bind_ok in H as (st1 & s3 & E & H). apply Hs in E as (b & B & Sb). bs H. destruct (tok_eqb (tk (ps_tok s3)) ELSE) eqn:Ke.
      * apply tok_eqb_eq in Ke. bs H. apply bind_ok in H as (st2 & s5 & E & H). apply Hs in E as (d & D & Sd). bs H.
        exists (ps_tok s :: a ++ b ++ ps_tok s3 :: d). split.
        { apply (eats_trans _ [ps_tok s] _ _ _ A). apply (eats_trans _ a _ _ _ A1). apply (eats_trans _ b _ _ _ B). exact (eats_trans _ [ps_tok s3] _ _ _ A0 D). }
        rewrite T in Sa. rewrite T0 in Sd. eapply se_if_else; eauto. rewrite <- (ahead_of _ _ _ B). exact St.
      * bs H. exists (ps_tok s :: a ++ b). split; [apply (eats_trans _ [ps_tok s] _ _ _ A); apply (eats_trans _ a _ _ _ A1 B)|].
        rewrite T in Sa. eapply se_if; eauto; [rewrite <- (ahead_of _ _ _ B); exact St|]. intros X. rewrite X in Ke. discriminate.
    + (* while *) do 2 bs H. apply bind_ok in H as (c & s2 & E & H). apply (so_expr _ (exprs_sound n)) in E as (a & A1 & Sa & St). bs H.
      apply bind_ok in H as (st1 & s3 & E & H). apply Hs in E as (b & B & Sb). cbn [ps_tbl retbl] in Sb.
      apply bind_ok in H as (u & s4 & E & H). apply tbl_ok in E as (M & R). destruct u. bs H.
      exists (ps_tok s :: a ++ b). pose proof (eats_back _ _ _ _ _ eq_refl B) as B'. split.
      { rewrite R. apply eats_right. apply (eats_trans _ [ps_tok s] _ _ _ A). exact (eats_trans _ a _ _ _ A1 B'). }
      rewrite T in Sa. rewrite <- (hd_eats _ _ _ (ps_tok s') A1 (sp_nonempty _ _ _ _ _ Sa)).
      replace (ps_tok s3) with (ps_tok s') in Sb by (rewrite R; reflexivity).
      eapply se_while; eauto. replace (ps_tok s') with (ps_tok s3) by (rewrite R; reflexivity). rewrite <- (ahead_of _ _ _ B'). exact St.
    + (* for *) do 3 bs H. apply bind_ok in H as (st1 & s2 & E & H). apply Hs in E as (a & A1 & Sa). cbn [ps_tbl retbl] in Sa. do 2 bs H.
      apply bind_ok in H as (e & s4 & E & H). apply (so_expr _ (exprs_sound n)) in E as (b & B & Sb & _). do 2 bs H.
      apply bind_ok in H as (st2 & s6 & E & H). apply Hs in E as (c & C & Sc).
      apply bind_ok in H as (st3 & s7 & E & H). apply Hs in E as (d & D & Sd).
      apply bind_ok in H as (u & s8 & E & H). apply tbl_ok in E as (M & R). destruct u. bs H.
      pose proof (eats_back _ _ _ _ _ eq_refl A1) as A1'.
      exists (ps_tok s :: a ++ ps_tok s2 :: b ++ ps_tok s4 :: c ++ d). split.
      { rewrite R. apply eats_right. apply (eats_trans _ [ps_tok s] _ _ _ A). apply (eats_trans _ a _ _ _ A1'). 
        repeat match goal with X : eats s2 [ps_tok s2] _ |- _ => apply (eats_trans _ [ps_tok s2] _ _ _ X); clear X end. apply (eats_trans _ b _ _ _ B).
        repeat match goal with X : eats s4 [ps_tok s4] _ |- _ => apply (eats_trans _ [ps_tok s4] _ _ _ X); clear X end. exact (eats_trans _ c _ _ _ C D). }
      replace (ps_tok s0) with (hd (ps_tok s') a) by (apply (hd_eats _ _ _ _ A1'); apply (sentence_nonempty _ _ _ _ _ Sa)).
      replace (ps_tok s7) with (ps_tok s') in Sd by (rewrite R; reflexivity). rewrite (ahead_of _ _ _ D) in Sc. replace (ps_tok s7) with (ps_tok s') in Sc by (rewrite R; reflexivity).
      eapply se_for; eauto; try congruence.
    + (* return *) bs H. destruct (tb_func (ps_tbl s)) as [f|] eqn:Fn; [|discriminate H]. do 3 bs H.
      destruct (tok_eqb (tk (ps_tok s0)) SEMI) eqn:Km.
      * apply tok_eqb_eq in Km. do 2 bs H. exists [ps_tok s; ps_tok s0]. split; [exact (eats_trans _ [ps_tok s] _ _ _ A A0)|].
        replace (ps_tbl s') with (ps_tbl s) by congruence. eapply se_return; eauto.
      * apply return_sound in H as (a & e & i & nm & ix & args & locals & g & Sy & Ng & A1 & Sp & St & ->). rewrite T in Sy, Sp.
        exists (ps_tok s :: a). split; [exact (eats_trans _ [ps_tok s] _ _ _ A A1)|]. eapply se_return_value; eauto.
    + (* func *) bs H. destruct (tb_func (ps_tbl s)) eqn:Fn; [discriminate H|]. do 3 bs H.
      apply bind_ok in H as (id & s2 & E & H). apply tbl_ok in E as (M & R). do 3 bs H.
      apply bind_ok in H as (ps & s5 & E & H). apply params_sound in E as (Kc & _ & a & A' & Sa).
      apply bind_ok in H as (u & s6 & E & H). apply declare_params_ok in E as (Dp & Rp).
      apply bind_ok in H as (u' & s7 & E & H). bs E. bs H.
      apply bind_ok in H as (u'' & s8 & E & H).
      assert (Rt : exists b g T4, eats s7 b s8 /\ spells_result (ps_tbl s7) b g T4 /\ set_ret id g T4 = COk tt (ps_tbl s8)).
      { destruct (tok_eqb (tk (ps_tok s7)) COLON) eqn:Kq.
        - apply tok_eqb_eq in Kq. bs E. apply bind_ok in E as (g & s9 & E' & E). apply type_sound in E' as (b & B & Sb). apply tbl_ok in E as (M2 & R2). destruct u''.
          exists (ps_tok s7 :: b), g, (ps_tbl s9). split; [rewrite R2; apply eats_right; eapply (eats_trans _ [ps_tok s7]); eauto|]. split; [|exact M2].
          apply re_type; auto. match goal with X : ps_tbl ?z = ps_tbl s7 |- _ => rewrite X in Sb end. exact Sb.
        - apply tbl_ok in E as (M2 & R2). destruct u''. exists [], GVoid, (ps_tbl s7). split; [rewrite R2; constructor|]. split; [constructor|exact M2]. }
      destruct Rt as (b & g & T4 & Eb & Sr & Mr). clear E. bs H.
      apply bind_ok in H as (body & s10 & E & H). apply Hs in E as (d & Ed & Sd). cbn [ps_tbl retbl] in Sd.
      apply bind_ok in H as (w & s11 & E & H). apply tbl_ok in E as (Mc & Rc). destruct w. do 2 bs H.
      exists (ps_tok s :: ps_tok s0 :: ps_tok s1 :: a ++ ps_tok s6 :: b ++ d).
      assert (Rx : retbl s2 (set_func (ps_tbl s2) (Some id)) = retbl s0 (set_func (ps_tbl s2) (Some id))) by (rewrite R; reflexivity). rewrite Rx in A0, T0. cbn [retbl ps_tok ps_tbl] in A0, T0.
      split.
      * apply eats_right. rewrite Rc. apply eats_right. apply (eats_trans _ [ps_tok s] _ _ _ A). apply (eats_trans _ [ps_tok s0] _ _ _ (eats_back _ _ _ _ _ eq_refl A0)).
        apply (eats_trans _ [ps_tok s1] _ _ _ A1). apply (eats_trans _ a _ _ _ A'). apply (eats_trans _ [ps_tok s6] _ _ _ (eats_back _ _ _ _ _ Rp A2)).
        apply (eats_trans _ b _ _ _ Eb). exact (eats_back _ _ _ _ _ eq_refl Ed).
      * cbn [retbl ps_tok ps_tbl]. replace (ps_tok s10) with (ps_tok s11) in Sd by (rewrite Rc; reflexivity). replace (ps_tok s5) with (ps_tok s6) in Kc by (rewrite Rp; reflexivity).
        rewrite T in M. rewrite T1, T0 in Sa. rewrite T2 in Sr.
        exact (se_func _ _ _ _ _ _ _ _ _ _ _ _ _ _ _ _ _ _ _ _ _ K Fn K0 K1 M K2 Sa Dp Kc Sr Mr Sd Mc).
    + (* break *) do 3 bs H. exists [ps_tok s]. split; [exact A|]. rewrite T. apply se_break; auto.
    + (* continue *) do 3 bs H. exists [ps_tok s]. split; [exact A|]. rewrite T. apply se_continue; auto.
    + (* use *) bs H. destruct (tb_func (ps_tbl s)) eqn:Fn; [discriminate H|]. destruct (Nat.eqb_spec (tb_scope (ps_tbl s)) 0) as [Sc|]; [|discriminate H]. bs H.
      apply use_sound in H as (Tb & t & m & o & a & args & c & b & y & Ea & Kt & Lt & Ko & Sa & Kc & Sb & ->); auto.
      eexists. split; [exact Ea|]. rewrite Tb. eapply se_use; eauto.
  - intros s ss s' H. cbn [parse_block] in H. bs H. destruct (tok_eqb (tk (ps_tok s)) CLOSECURLY) eqn:K.
    + apply tok_eqb_eq in K. bs H. split; auto. exists []. split; [apply eats_refl|constructor].
    + apply bind_ok in H as (st & s1 & E & H). apply Hs in E as (a & A & Sa). apply bind_ok in H as (ss' & s2 & E & H). apply Hb in E as (Kc & b & B & Sb). bs H.
      split; auto. exists (a ++ b). split; [eapply eats_trans; eauto|]. econstructor; eauto. rewrite <- (ahead_of _ _ _ B). exact Sa.
Qed.

Lemma sym_at_id t id i nm b : sym_at t id = Some (mkSym i nm b) -> i = id.
Proof. intros H. apply sym_at_in in H as (_ & H). exact H. Qed.

Lemma fields_sound n id : forall s u s', parse_fields n id s = COk u s' -> tk (ps_tok s') = CLOSECURLY /\
  exists a, eats s a s' /\ spells_fields id (ps_tbl s) a (ps_tbl s').
Proof.
  induction n as [|n IH]; intros s u s' H; [discriminate|]. cbn [parse_fields] in H. bs H. destruct (tok_eqb (tk (ps_tok s)) CLOSECURLY) eqn:K.
  - apply tok_eqb_eq in K. bs H. split; auto. exists []. split; [apply eats_refl|constructor].
  - do 3 bs H. destruct (sym_at (ps_tbl s) id) as [[i nm [| | | |d fs| | | ]]|] eqn:Sy; try discriminate H.
    destruct (Nat.leb_spec 255 (length fs)); [discriminate H|]. destruct (field_index fs x0) eqn:Fi; [discriminate H|]. do 2 bs H.
    apply bind_ok in H as (g & s3 & E & H). apply type_sound in E as (a & A1 & Sa).
    apply bind_ok in H as (w & s4 & E & H). apply tbl_ok in E as (M & R). apply IH in H as (Kc & b & B & Sb). split; auto.
    destruct (sym_at (ps_tbl s3) id) as [[i' nm' [| | | |d' fs'| | | ]]|] eqn:Sy'; try discriminate M. injection M as _ M.
    apply sym_at_id in Sy as Ei. apply sym_at_id in Sy' as Ei'. subst i i'.
    exists (ps_tok s :: ps_tok s0 :: a ++ b). split.
    { apply (eats_trans _ [ps_tok s] _ _ _ A). apply (eats_trans _ [ps_tok s0] _ _ _ A0). apply (eats_trans _ a _ _ _ A1). exact (eats_back _ _ _ _ _ R B). }
    rewrite <- M in Sb. rewrite T0, T in Sa. eapply fi_cons; eauto.
Qed.

Definition is_struct (T : tbl) (id : nat) : Prop := exists nm d fs, sym_at T id = Some (mkSym id nm (SyStruct d fs)).
Lemma find_mapped {A B} (f : A -> B) (p : A -> bool) (q : B -> bool) l :
  (forall x, q (f x) = p x) -> find q (map f l) = option_map f (find p l).
Proof. intros E. induction l as [|x l IH]; cbn; auto. rewrite E. destruct (p x); auto. Qed.
Lemma put_at t f y b id : sym_at t f = Some y ->
  sym_at (put_body t f b) id = if id =? f then Some (mkSym f (sy_name y) b) else sym_at t id.
Proof.
  intros Y. unfold sym_at, put_body. cbn [set_syms tb_syms].
  rewrite (find_mapped (fun s0 => if sy_id s0 =? f then mkSym f (sy_name s0) b else s0) (fun s0 => sy_id s0 =? id)).
  - destruct (Nat.eqb_spec id f) as [->|N].
    + unfold sym_at in Y. rewrite Y. cbn. apply sym_at_in in Y as (_ & ->). rewrite Nat.eqb_refl. reflexivity.
    + destruct (find _ _) as [z|] eqn:Z; [|reflexivity]. cbn. apply find_some in Z as (_ & Z).
      apply Nat.eqb_eq in Z. destruct (Nat.eqb_spec (sy_id z) f); congruence.
  - intros z. destruct (Nat.eqb_spec (sy_id z) f) as [Ez|]; cbn; congruence.
Qed.
Lemma put_struct T id nm b d fs : sym_at T id = Some (mkSym id nm b) -> is_struct (put_body T id (SyStruct d fs)) id.
Proof. intros H. exists nm, d, fs. rewrite (put_at _ _ _ _ _ H), Nat.eqb_refl. reflexivity. Qed.
Lemma fields_struct id T a T' : spells_fields id T a T' -> is_struct T id -> is_struct T' id.
Proof. induction 1; intros S0; auto. apply IHspells_fields. eapply put_struct; eauto. Qed.

Lemma struct_sound n s u s' : parse_struct n s = COk u s' -> tk (ps_tok s) = STRUCT -> exists a, eats s a s' /\ spells_struct (ps_tbl s) a (ps_tbl s').
Proof.
  unfold parse_struct. intros H K. bs H. destruct (tb_func (ps_tbl s)) eqn:Fn; [discriminate H|]. do 2 bs H.
  apply bind_ok in H as (id & s2 & E & H). apply tbl_ok in E as (M & R). bs H.
  destruct (sym_at (ps_tbl s2) id) as [[i nm [| | | |[] fs| | | ]]|] eqn:Sy; try discriminate H. apply sym_at_id in Sy as Ei. subst i. do 3 bs H.
  apply bind_ok in H as (w & s5 & E & H). apply fields_sound in E as (Kc & a & A' & Sa). do 2 bs H.
  assert (R' : retbl s2 (put_body (ps_tbl s2) id (SyStruct true fs)) = retbl s0 (put_body (ps_tbl s2) id (SyStruct true fs))) by (rewrite R; reflexivity).
  rewrite R' in A0, T0. cbn [ps_tbl ps_tok retbl] in A0, T0. rewrite T1, T0 in Sa.
  destruct (fields_struct _ _ _ _ Sa (put_struct _ _ _ _ _ _ Sy)) as (nm' & d' & fs' & Sy').
  rewrite <- T2 in Sy', Sa. rewrite Sy' in H. destruct fs' as [|f fs']; [discriminate H|]. bs H.
  exists (ps_tok s :: ps_tok s0 :: ps_tok s1 :: a ++ [ps_tok s5]). split.
  - apply (eats_trans _ [ps_tok s] _ _ _ A). apply (eats_trans _ [ps_tok s0] _ _ _ (eats_back _ _ _ _ _ eq_refl A0)).
    apply (eats_trans _ [ps_tok s1] _ _ _ A1). exact (eats_trans _ a _ _ _ A' A2).
  - rewrite T in M. eapply sr; eauto.
Qed.

Theorem top_sound n : forall s ss s', parse_top n s = COk ss s' ->
  exists a, eats s a s' /\ program (ps_tbl s) a (ps_tok s') ss (ps_tbl s').
Proof.
  induction n as [|n IH]; intros s ss s' H; [discriminate|]. cbn [parse_top] in H. bs H.
  assert (St : (st <- parse_stmt n ;; ss0 <- parse_top n ;; cret (st :: ss0)) s = COk ss s' ->
    exists a, eats s a s' /\ program (ps_tbl s) a (ps_tok s') ss (ps_tbl s')).
  { clear H. intros H. apply bind_ok in H as (st & s1 & E & H). apply (proj1 (stmts_sound n)) in E as (a & A & Sa).
    apply bind_ok in H as (ss0 & s2 & E & H). apply IH in E as (b & B & Pb). bs H. exists (a ++ b). split; [eapply eats_trans; eauto|].
    eapply pr_stmt; eauto. rewrite <- (ahead_of _ _ _ B). exact Sa. }
  destruct (tk (ps_tok s)) eqn:K; try exact (St H).
  - apply bind_ok in H as (u & s1 & E & H). apply struct_sound in E as (a & A & Sa); auto. apply IH in H as (b & B & Pb).
    exists (a ++ b). split; [eapply eats_trans; eauto|]. eapply pr_struct; eauto.
  - bs H. exists []. split; [apply eats_refl|]. constructor; auto.
Qed.
