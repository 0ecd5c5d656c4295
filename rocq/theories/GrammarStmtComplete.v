(** * The parser reads back every statement the grammar spells *)
From Verif Require Import Base Token Lexer Values Syntax Symbols TableInv Parser Grammar GrammarProofs GrammarSound GrammarStmt GrammarStmtSound.
Local Open Scope nat_scope.
Local Open Scope cm_scope.

(** ** Steps of the parser along the tokens [eats s a s'] still to come *)
Section Steps.
Context {A : Type}.
Lemma cs_next (g : nat -> pm A) s x a s' r s2 : eats s (x :: a) s' ->
  (forall s1, eats s1 a s' -> ps_tbl s1 = ps_tbl s -> ev g s1 r s2) -> ev (fun n => cbind next_token (fun _ => g n)) s r s2.
Proof. intros E G. apply eats_one in E as (s1 & K & N & E & T). eapply ev_step; [exact N|]. apply G; auto. Qed.
Lemma cs_get k (g : nat -> pm A) s x y a s' r s2 : eats s (x :: y :: a) s' -> tk y = k ->
  (forall s1, eats s1 (y :: a) s' -> ps_tbl s1 = ps_tbl s -> ev g s1 r s2) -> ev (fun n => cbind (get_expect k) (fun _ => g n)) s r s2.
Proof. intros E Ky G. apply eats_one in E as (s1 & K & N & E & T). eapply ev_get; [exact N| |apply G; auto]. rewrite (eats_hd _ _ _ _ E). exact Ky. Qed.
Lemma cs_expect k (g : nat -> pm A) s x a s' r s2 : eats s (x :: a) s' -> tk x = k -> ev g s r s2 -> ev (fun n => cbind (expect k) (fun _ => g n)) s r s2.
Proof. intros E K G. eapply ev_expect; [|exact G]. rewrite (eats_hd _ _ _ _ E). exact K. Qed.
Lemma cs_lexeme (g : text -> nat -> pm A) s x a s' w r s2 : eats s (x :: a) s' -> tk_lexeme x = Some w -> ev (g w) s r s2 -> ev (fun n => cbind lexeme (fun x => g x n)) s r s2.
Proof. intros E K G. eapply ev_lexeme; [|exact G]. rewrite (eats_hd _ _ _ _ E). exact K. Qed.
Lemma cs_line (g : Z -> nat -> pm A) s r s2 : ev (g (tk_line (ps_tok s))) s r s2 -> ev (fun n => cbind the_line (fun t => g t n)) s r s2.
Proof. intros E. apply (ev_bind (fun _ => the_line) g s (tk_line (ps_tok s)) s); auto. apply ev_const; reflexivity. Qed.
Lemma cs_the_tbl (g : tbl -> nat -> pm A) s r s2 : ev (g (ps_tbl s)) s r s2 -> ev (fun n => cbind the_tbl (fun t => g t n)) s r s2.
Proof. intros E. apply (ev_bind (fun _ => the_tbl) g s (ps_tbl s) s); auto. apply ev_const; destruct s; reflexivity. Qed.
Lemma cs_tbl {B} (m : tbl -> cres tbl B) (g : B -> nat -> pm A) s a s' x t r s2 : m (ps_tbl s) = COk x t -> eats s a s' ->
  (forall s1, eats s1 a s' -> ps_tbl s1 = t -> ps_tok s1 = ps_tok s -> ev (g x) s1 r s2) -> ev (fun n => cbind (on_tbl m) (fun x => g x n)) s r s2.
Proof. intros M E G. eapply ev_tbl; [exact M|]. apply G; auto. apply eats_left; auto. Qed.
Lemma cs_mod (f : tbl -> tbl) (g : nat -> pm A) s a s' r s2 : eats s a s' ->
  (forall s1, eats s1 a s' -> ps_tbl s1 = f (ps_tbl s) -> ps_tok s1 = ps_tok s -> ev g s1 r s2) -> ev (fun n => cbind (mod_tbl f) (fun _ => g n)) s r s2.
Proof. intros E G. apply (cs_tbl (fun t => COk tt (f t)) (fun _ => g) s a s' tt (f (ps_tbl s))); auto. Qed.
Lemma cs_type (g : tag -> nat -> pm A) s T a gt T' b s' r s2 : eats s (a ++ b) s' -> ps_tbl s = T -> spells_type T a gt T' -> tk (ahead b (ps_tok s')) <> QUESTION ->
  (forall s1, eats s1 b s' -> ps_tbl s1 = T' -> ev (g gt) s1 r s2) -> ev (fun n => cbind parse_type (fun t => g t n)) s r s2.
Proof.
  intros E E0 St Q G. apply (eats_mid _ _ _ _ T') in E as (s1 & Ea & Eb & Et). eapply ev_type; [|apply G; eauto].
  eapply type_of; eauto. rewrite (ahead_of _ _ _ Eb). exact Q.
Qed.
Lemma cs_expr (g : expr -> nat -> pm A) s T a e T' b s' r s2 : eats s (a ++ b) s' -> ps_tbl s = T -> spells 0 T a e T' -> stops e (tk (ahead b (ps_tok s'))) ->
  (forall s1, eats s1 b s' -> ps_tbl s1 = T' -> ev (g e) s1 r s2) -> ev (fun n => cbind (parse_expr n) (fun t => g t n)) s r s2.
Proof.
  intros E E0 St Q G. apply (eats_mid _ _ _ _ T') in E as (s1 & Ea & Eb & Et). eapply ev_bind; [|apply G; eauto].
  destruct complete as (C & _). eapply expr_of; [apply C; exact St|exact Ea|auto|auto|]. rewrite (ahead_of _ _ _ Eb). exact Q.
Qed.
Lemma cs_factor (g : expr -> nat -> pm A) s T a e T' b s' r s2 : eats s (a ++ b) s' -> ps_tbl s = T -> head_of T a e T' (tk (ahead b (ps_tok s'))) ->
  (forall s1, eats s1 b s' -> ps_tbl s1 = T' -> ev (g e) s1 r s2) -> ev (fun n => cbind (parse_factor n) (fun t => g t n)) s r s2.
Proof.
  intros E E0 (St & _ & Q1 & Q2 & Q3) G. apply (eats_mid _ _ _ _ T') in E as (s1 & Ea & Eb & Et). eapply ev_bind; [|apply G; eauto].
  destruct complete as (C & _). pose proof (C _ _ _ _ _ St) as Gd. rewrite <- (ahead_of _ _ _ Eb) in Q1, Q2, Q3. apply (Gd s s1 Ea E0 Et).
  - split; auto.
  - unfold weaker. destruct (prec_of (tk (ps_tok s1))) eqn:P; auto. assert (is_bop (tk (ps_tok s1))) as B by (apply bop_prec in P as (o & -> & _); exists o; reflexivity).
    split; [apply bop_prec in P as (o & _ & -> & _); pose proof (strength_range o); lia|]. destruct (ends_open e); auto. destruct (Q3 eq_refl B).
Qed.
Lemma cs_end (st : A) s s' : eats s [] s' -> ps_tbl s = ps_tbl s' -> ev (fun _ => cret st) s st s'.
Proof. intros E T. apply eats_end in E; auto. subst. apply ev_ret. Qed.
End Steps.

Ltac tokis E K := rewrite (eats_hd _ _ _ _ E), K.
Ltac iftok := repeat match goal with |- context [tok_eqb ?a ?b] => change (tok_eqb a b) with true || change (tok_eqb a b) with false end; cbv iota.

Lemma cs_sub {A B} (f : nat -> pm B) (g : B -> nat -> pm A) s a b s' T' v r s2 : eats s (a ++ b) s' ->
  (forall s1, eats s a s1 -> ps_tbl s1 = T' -> ps_tok s1 = ahead b (ps_tok s') -> ev f s v s1) ->
  (forall s1, eats s1 b s' -> ps_tbl s1 = T' -> ev (g v) s1 r s2) -> ev (fun n => cbind (f n) (fun v => g v n)) s r s2.
Proof.
  intros E F G. apply (eats_mid _ _ _ _ T') in E as (s1 & Ea & Eb & Et). eapply ev_bind; [exact (F s1 Ea Et (ahead_of _ _ _ Eb))|apply G; auto].
Qed.

Lemma params_ev T a ps T' : spells_params T a ps T' -> forall s s', eats s a s' -> ps_tbl s = T -> ps_tbl s' = T' -> tk (ps_tok s') = CLOSEPAREN -> ev parse_params s ps s'.
Proof.
  assert (Z : forall s, tk (ps_tok s) = CLOSEPAREN -> ev parse_params s [] s).
  { intros s K. apply ev_S. cbn [parse_params]. ev1. rewrite K. iftok. apply ev_ret. }
  induction 1 as [T|T t x c0 a g T' Kt Lt Kc0 St|T t x c0 a g T1 m b ps T' Kt Lt Kc0 St Km Sp IH]; intros s s' E E0 E1 K.
  - apply eats_end in E; [|congruence]. subst. auto.
  - apply ev_S. cbn [parse_params]. ev1. tokis E Kt. iftok. eapply cs_expect; [exact E|exact Kt|]. eapply cs_lexeme with (g := fun x n => _); [exact E|exact Lt|].
    eapply cs_next; [exact E|]. clear E. intros s1 E T1. eapply cs_expect; [exact E|exact Kc0|]. eapply cs_next; [exact E|]. clear E. intros s2 E T2.
    rewrite <- (app_nil_r a) in E. eapply cs_type with (g := fun x n => _) (1 := E) (3 := St); [congruence|cbn; rewrite K; discriminate|]. clear E. intros s3 E T3.
    apply eats_end in E; [|congruence]. subst s3. ev1. rewrite K. iftok. eapply ev_bind with (f := fun _ => cret tt) (g := fun _ n => _); [apply ev_ret|].
    eapply ev_bind with (g := fun v n => _); [apply Z; auto|]. apply ev_ret.
  - apply ev_S. cbn [parse_params]. ev1. tokis E Kt. iftok. eapply cs_expect; [exact E|exact Kt|]. eapply cs_lexeme with (g := fun x n => _); [exact E|exact Lt|].
    eapply cs_next; [exact E|]. clear E. intros s1 E T2. eapply cs_expect; [exact E|exact Kc0|]. eapply cs_next; [exact E|]. clear E. intros s2 E T3.
    eapply cs_type with (g := fun x n => _) (1 := E) (3 := St); [congruence|cbn; rewrite Km; discriminate|]. clear E. intros s3 E T4.
    ev1. tokis E Km. iftok. eapply cs_next; [exact E|]. clear E. intros s4 E T5. eapply ev_bind with (g := fun v n => _); [apply (IH _ _ E); congruence|]. apply ev_ret.
Qed.

Lemma declare_params_ev n T ps T' : declares_params n T ps T' -> forall s, ps_tbl s = T -> declare_params n ps s = COk tt (retbl s T').
Proof.
  induction 1 as [T|T x g T1 ps T' D _ IH]; intros s E0; cbn [declare_params].
  - unfold cret. rewrite <- E0, retbl_self. reflexivity.
  - unfold cbind, on_tbl. rewrite E0, D. rewrite IH by reflexivity. reflexivity.
Qed.

Lemma use_args_ev a xs : spells_use_args a xs -> forall s s', eats s a s' -> ps_tbl s = ps_tbl s' -> tk (ps_tok s') = CLOSEPAREN -> ev parse_use_args s xs s'.
Proof.
  induction 1 as [|t x c b xs Kt Lt Sc Sb IH]; intros s s' E E0 K.
  - apply eats_end in E; auto. subst. apply ev_S. cbn [parse_use_args]. ev1. rewrite K. iftok. apply ev_ret.
  - apply ev_S. cbn [parse_use_args]. ev1. tokis E Kt. iftok. eapply cs_expect; [exact E|exact Kt|]. eapply cs_lexeme with (g := fun x n => _); [exact E|exact Lt|].
    eapply cs_next; [exact E|]. clear E. intros s1 E T1. ev1. destruct Sc as [->|(m & -> & Km)]; cbn [app] in E.
    + assert (Nc : tok_eqb (tk (ps_tok s1)) COMMA = false).
      { rewrite (ahead_of _ _ _ E). inversion Sb; subst; cbn; [rewrite K|match goal with X : tk _ = STRING |- _ => rewrite X end]; reflexivity. }
      rewrite Nc. eapply ev_bind with (f := fun _ => cret tt) (g := fun _ n => _); [apply ev_ret|].
      eapply ev_bind with (g := fun v n => _); [apply (IH _ _ E); congruence|]. apply ev_ret.
    + tokis E Km. iftok. eapply cs_next; [exact E|]. clear E. intros s2 E T2. eapply ev_bind with (g := fun v n => _); [apply (IH _ _ E); congruence|]. apply ev_ret.
Qed.

Definition starts (k : tokkind) : Prop :=
  match k with NULL | BOOL | IDENT | MINUS | BANG | CHAR | INT | FLOAT | STRING | OPENPAREN | NEW | CAST | IF
    | OPENCURLY | FUNC | WHILE | FOR | RETURN | BREAK | CONTINUE | USE => True | _ => False end.
Lemma sp_starts p T a e T' : spells p T a e T' -> exists x a', a = x :: a' /\ starts (tk x).
Proof. intros H. apply sp_first in H as (x & a' & -> & K). exists x, a'. split; auto. destruct (tk x); try destruct K; exact I. Qed.
Lemma sentence_starts T a x st T' : sentence T a x st T' -> exists t a', a = t :: a' /\ starts (tk t).
Proof.
  intros H. destruct H; cbn [app];
    try (eexists _, _; split; [reflexivity|match goal with X : tk ?t = _ |- context [tk ?t] => rewrite X; exact I end]).
  all: match goal with X : head_of _ ?a _ _ _ |- _ => destruct X as (X & _); apply sp_starts in X as (? & ? & -> & K); cbn [app]; eauto end.
Qed.
Lemma ahead_starts T a x st T' y : sentence T a x st T' -> starts (tk (ahead a y)).
Proof. intros H. apply sentence_starts in H as (t & a' & -> & K). exact K. Qed.
Ltac nostart H := let X := fresh in intro X; rewrite X in H; exact H.

Definition good_sentence (T : tbl) (a : list token) (x : token) (st : stmt) (T' : tbl) : Prop :=
  forall s s', eats s a s' -> ps_tbl s = T -> ps_tbl s' = T' -> ps_tok s' = x -> ev parse_stmt s st s'.
Definition good_sentences (T : tbl) (a : list token) (x : token) (ss : list stmt) (T' : tbl) : Prop :=
  forall s s', eats s a s' -> ps_tbl s = T -> ps_tbl s' = T' -> ps_tok s' = x -> tk x = CLOSECURLY -> ev parse_block s ss s'.

Lemma simple_ev s st s' : match tk (ps_tok s) with IF | OPENCURLY | FUNC | WHILE | FOR | RETURN | BREAK | CONTINUE | USE => False | _ => True end ->
  ev parse_simple s st s' -> ev parse_stmt s st s'.
Proof. intros K H. apply ev_S. cbn [parse_stmt]. ev1. destruct (tk (ps_tok s)); try exact H; destruct K. Qed.
Lemma head_simple T a e T' k b s s' : head_of T a e T' k -> eats s (a ++ b) s' ->
  match tk (ps_tok s) with IF | OPENCURLY | FUNC | WHILE | FOR | RETURN | BREAK | CONTINUE | USE => False | _ => True end.
Proof.
  intros (Sp & Ni & _) E. apply sp_first in Sp as (x & a' & -> & K). cbn [app] in E. rewrite (eats_hd _ _ _ _ E). cbn [hd] in Ni.
  destruct (tk x); try exact I; try exact K. congruence.
Qed.
(** the right-hand side of a declaration or assignment *)
Definition finish (n : nat) (line : Z) (op : tokkind) (l : expr) : pm stmt :=
  match prec_of op with
      | Some _ => cfail
      | None =>
          next_token ;;;
          rhs <- parse_expr n ;;
          (if tok_eqb op DECLARECONST then
             match l with
             | EId name _ =>
                 match const_of rhs with
                 | Some c => on_tbl (declare_const name c)
                 | None => cfail
                 end
             | _ => cfail
             end
           else cret tt) ;;;
          cret (SAsg line op l rhs)
      end.
Lemma finish_ev line op l o b e s s' T1 : eats s (o :: b) s' -> ps_tbl s = T1 -> spells 0 T1 b e (ps_tbl s') -> stops e (tk (ps_tok s')) -> prec_of op = None -> op <> DECLARECONST ->
  ev (fun n => finish n line op l) s (SAsg line op l e) s'.
Proof.
  intros E E0 Sp St P Nd. unfold finish. rewrite P. eapply cs_next; [exact E|]. clear E. intros s1 E T2. rewrite <- (app_nil_r b) in E.
  eapply cs_expr with (g := fun rhs n => _) (1 := E) (3 := Sp); [congruence|exact St|]. clear E. intros s2 E T3. apply eats_end in E; auto. subst s2.
  destruct (tok_eqb op DECLARECONST) eqn:D; [apply tok_eqb_eq in D; contradiction|].
  apply ev_const. reflexivity.
Qed.
Lemma finish_const line y r o b e k s s' T1 T2 : eats s (o :: b) s' -> ps_tbl s = T1 -> spells 0 T1 b e T2 -> stops e (tk (ps_tok s')) -> constant e k -> declare_const y k T2 = COk tt (ps_tbl s') ->
  ev (fun n => finish n line DECLARECONST (EId y r)) s (SAsg line DECLARECONST (EId y r) e) s'.
Proof.
  intros E E0 Sp St Ck D. apply const_ok in Ck. unfold finish. cbn [prec_of]. eapply cs_next; [exact E|]. clear E. intros s1 E T3. rewrite <- (app_nil_r b) in E.
  eapply cs_expr with (g := fun rhs n => _) (1 := E) (3 := Sp); [congruence|exact St|]. clear E. intros s2 E T4. iftok. rewrite Ck.
  eapply cs_tbl with (g := fun _ n => _); [rewrite T4; exact D|exact E|]. clear E. intros s3 E T5 _. apply cs_end; auto.
Qed.

Theorem stmts_complete :
  (forall T a x st T', sentence T a x st T' -> good_sentence T a x st T') /\
  (forall T a x ss T', sentences T a x ss T' -> good_sentences T a x ss T').
Proof.
  apply sentence_ind2.
  - (* block *) intros T o a c x ss T1 T' Ko Kc _ G Cl s s' E E0 E1 Ex. apply ev_S. cbn [parse_stmt]. ev1. tokis E Ko.
    apply cs_line with (g := fun l n => _). rewrite (eats_hd _ _ _ _ E). eapply cs_next; [exact E|]. clear E. intros s1 E T2. eapply cs_mod; [exact E|]. clear E. intros s2 E T3 _.
    eapply cs_sub with (g := fun ss n => _) (T' := T1) (1 := E); [intros s3 Ea Ta Tk; apply (G _ _ Ea); [congruence|auto|exact Tk|exact Kc]|]. clear E. intros s3 E T4.
    eapply cs_next; [exact E|]. clear E. intros s4 E T5. eapply cs_tbl with (g := fun _ n => _); [rewrite T5, T4; exact Cl|exact E|]. clear E. intros s5 E T6 _.
    apply cs_end; congruence.
  - (* func *) intros T f t nm id T1 o a ps T2 c T3 b g T4 T5 d x st T6 T7 Kf Fn Kt Lt Df Ko Sp Dp Kc Sr Mr Sd G Cl s s' E E0 E1 Ex. apply ev_S. cbn [parse_stmt]. ev1. tokis E Kf.
    apply cs_the_tbl with (g := fun l n => _). rewrite E0, Fn. apply cs_line with (g := fun l n => _). rewrite (eats_hd _ _ _ _ E).
    eapply cs_get; [exact E|exact Kt|]. clear E. intros s1 E X1. eapply cs_lexeme with (g := fun l n => _); [exact E|exact Lt|].
    eapply cs_tbl with (g := fun _ n => _); [rewrite X1, E0; exact Df|exact E|]. clear E. intros s2 E X2 _. eapply cs_mod; [exact E|]. clear E. intros s3 E X3 _.
    eapply cs_get; [exact E|exact Ko|]. clear E. intros s4 E X4. eapply cs_next; [exact E|]. clear E. intros s5 E X5.
    eapply cs_sub with (g := fun ps n => _) (T' := T2) (1 := E); [intros s6 Ea Ta Tk; apply (params_ev _ _ _ _ Sp _ _ Ea); [congruence|auto|rewrite Tk; exact Kc]|]. clear E. intros s6 E X6.
    eapply ev_bind with (f := fun _ => declare_params (length ps) ps) (g := fun _ n => _); [apply ev_const; apply (declare_params_ev _ _ _ _ Dp); auto|].
    apply eats_left with (t := T3) in E. eapply cs_next; [exact E|]. clear E. intros s7 E X7. ev1. cbn [ps_tbl retbl] in X7.
    assert (K : exists s8, eats s8 d s' /\ ps_tbl s8 = T5 /\ (if tok_eqb (tk (ps_tok s7)) COLON then next_token ;;; g <- parse_type ;; on_tbl (set_ret id g) else on_tbl (set_ret id GVoid)) s7 = COk tt s8).
    { inversion Sr as [|? c0 a0 g0 ? Kc0 St]; subst.
      - cbn [app] in E. exists (retbl s7 T5). split; [apply eats_left; auto|]. split; auto. rewrite (ahead_of _ _ _ E).
        pose proof (ahead_starts _ _ _ _ _ (ps_tok s') Sd) as Sh. destruct (tok_eqb (tk (ahead d (ps_tok s'))) COLON) eqn:Dc; [apply tok_eqb_eq in Dc; rewrite Dc in Sh; destruct Sh|].
        unfold on_tbl. rewrite Mr. reflexivity.
      - cbn [app] in E. tokis E Kc0. iftok. apply eats_one in E as (s9 & _ & N & E & X9). apply (eats_mid _ _ _ _ T4) in E as (s10 & Ea & E & X10).
        exists (retbl s10 T5). split; [apply eats_left; auto|]. split; auto. unfold cbind. rewrite N. erewrite (type_of _ _ _ _ _ _ St Ea); [|congruence|auto|].
        + unfold on_tbl. rewrite X10, Mr. reflexivity.
        + pose proof (ahead_starts _ _ _ _ _ (ps_tok s') Sd) as Sh. rewrite (ahead_of _ _ _ E). nostart Sh. }
    destruct K as (s8 & E' & X8 & K). eapply ev_bind with (f := fun _ => _) (g := fun _ n => _); [apply ev_const; exact K|].
    eapply cs_mod; [exact E'|]. clear E E'. intros s9 E X9 _. rewrite <- (app_nil_r d) in E.
    eapply cs_sub with (g := fun ps n => _) (T' := T6) (1 := E); [intros s10 Ea Ta Tk; apply (G _ _ Ea); [congruence|auto|cbn in Tk; congruence]|]. clear E. intros s10 E X10.
    eapply cs_tbl with (g := fun _ n => _); [rewrite X10; exact Cl|exact E|]. clear E. intros s11 E X11 _. eapply cs_mod; [exact E|]. clear E. intros s12 E X12 _.
    apply cs_end; auto. rewrite X12, X11, E1. reflexivity.
  - (* if *) intros T i a e T1 b x st T' Ki Sp St Sb G Ne s s' E E0 E1 Ex. apply ev_S. cbn [parse_stmt]. ev1. tokis E Ki.
    apply cs_line with (g := fun l n => _). rewrite (eats_hd _ _ _ _ E). eapply cs_next; [exact E|]. clear E. intros s1 E X1. rewrite <- Ex in St.
    eapply cs_expr with (g := fun rhs n => _) (1 := E) (3 := Sp); [congruence|exact St|]. clear E. intros s2 E X2.
    eapply ev_bind with (g := fun rhs n => _); [apply (G _ _ E); auto|]. ev1. rewrite Ex. destruct (tok_eqb (tk x) ELSE) eqn:D; [apply tok_eqb_eq in D; contradiction|]. apply ev_ret.
  - (* if else *) intros T i a e T1 b st1 T2 l d x st2 T' Ki Sp St Sb G Kl Sd G2 s s' E E0 E1 Ex. apply ev_S. cbn [parse_stmt]. ev1. tokis E Ki.
    apply cs_line with (g := fun l n => _). rewrite (eats_hd _ _ _ _ E). eapply cs_next; [exact E|]. clear E. intros s1 E X1.
    eapply cs_expr with (g := fun rhs n => _) (1 := E) (3 := Sp); [congruence| |]. { destruct b; exact St. } clear E. intros s2 E X2.
    eapply cs_sub with (g := fun ps n => _) (T' := T2) (1 := E); [intros s3 Ea Ta Tk; apply (G _ _ Ea); auto|]. clear E. intros s3 E X3. ev1. tokis E Kl. iftok.
    eapply cs_next; [exact E|]. clear E. intros s4 E X4. eapply ev_bind with (g := fun rhs n => _); [apply (G2 _ _ E); congruence|]. apply ev_ret.
  - (* while *) intros T w a e T1 b x st T2 T' Kw Sp St Sb G Cl s s' E E0 E1 Ex. apply ev_S. cbn [parse_stmt]. ev1. tokis E Kw.
    eapply cs_next; [exact E|]. clear E. intros s1 E X1. apply cs_line with (g := fun l n => _). rewrite <- Ex in St.
    assert (Hh : ps_tok s1 = hd x a). { destruct a; [destruct (sp_nonempty _ _ _ _ _ Sp eq_refl)|]. exact (eats_hd _ _ _ _ E). }
    rewrite Hh. eapply cs_expr with (g := fun rhs n => _) (1 := E) (3 := Sp); [congruence|exact St|]. clear E. intros s2 E X2.
    eapply cs_mod; [exact E|]. clear E. intros s3 E X3 _. rewrite <- (app_nil_r b) in E.
    eapply cs_sub with (g := fun ps n => _) (T' := T2) (1 := E); [intros s4 Ea Ta Tk; apply (G _ _ Ea); [congruence|auto|cbn in Tk; congruence]|]. clear E. intros s4 E X4.
    eapply cs_tbl with (g := fun _ n => _); [rewrite X4; exact Cl|exact E|]. clear E. intros s5 E X5 _. apply cs_end; congruence.
  - (* for *) intros T f a m1 st1 T1 b e T2 m2 c st2 T3 d x st3 T4 T' Kf Km1 Km2 Sa Ga Sp Sc Gc Sd Gd Cl s s' E E0 E1 Ex. apply ev_S. cbn [parse_stmt]. ev1. tokis E Kf.
    eapply cs_next; [exact E|]. clear E. intros s1 E X1. apply cs_line with (g := fun l n => _).
    assert (Hh : ps_tok s1 = hd x a). { destruct a; [destruct (sentence_nonempty _ _ _ _ _ Sa eq_refl)|]. exact (eats_hd _ _ _ _ E). }
    rewrite Hh. eapply cs_mod; [exact E|]. clear E. intros s2 E X2 _.
    eapply cs_sub with (g := fun ps n => _) (T' := T1) (1 := E); [intros s3 Ea Ta Tk; apply (Ga _ _ Ea); [congruence|auto|exact Tk]|]. clear E. intros s3 E X3.
    eapply cs_expect; [exact E|exact Km1|]. eapply cs_next; [exact E|]. clear E. intros s4 E X4.
    eapply cs_expr with (g := fun rhs n => _) (1 := E) (3 := Sp); [congruence|cbn; rewrite Km2; stk|]. clear E. intros s5 E X5.
    eapply cs_expect; [exact E|exact Km2|]. eapply cs_next; [exact E|]. clear E. intros s6 E X6.
    eapply cs_sub with (g := fun ps n => _) (T' := T3) (1 := E); [intros s7 Ea Ta Tk; apply (Gc _ _ Ea); [congruence|auto|rewrite Tk, Ex; reflexivity]|]. clear E. intros s7 E X7.
    rewrite <- (app_nil_r d) in E.
    eapply cs_sub with (g := fun ps n => _) (T' := T4) (1 := E); [intros s8 Ea Ta Tk; apply (Gd _ _ Ea); [congruence|auto|cbn in Tk; congruence]|]. clear E. intros s8 E X8.
    eapply cs_tbl with (g := fun _ n => _); [rewrite X8; exact Cl|exact E|]. clear E. intros s9 E X9 _. apply cs_end; congruence.
  - (* return *) intros T r m x f Kr Km Fn s s' E E0 E1 Ex. apply ev_S. cbn [parse_stmt]. ev1. tokis E Kr. apply cs_the_tbl with (g := fun l n => _). rewrite E0, Fn.
    apply cs_line with (g := fun l n => _). rewrite (eats_hd _ _ _ _ E). eapply cs_next; [exact E|]. clear E. intros s1 E X1. ev1. tokis E Km. iftok.
    eapply cs_next; [exact E|]. clear E. intros s2 E X2. apply cs_end; congruence.
  - (* return e *) intros T r a e x f i nm ix args locals g T' Kr Fn Sy Ng Sp St s s' E E0 E1 Ex. apply ev_S. cbn [parse_stmt]. ev1. tokis E Kr. apply cs_the_tbl with (g := fun l n => _). rewrite E0, Fn.
    apply cs_line with (g := fun l n => _). rewrite (eats_hd _ _ _ _ E). eapply cs_next; [exact E|]. clear E. intros s1 E X1. ev1.
    assert (Ns : tok_eqb (tk (ps_tok s1)) SEMI = false).
    { apply sp_first in Sp as (t & a' & -> & K). rewrite (eats_hd _ _ _ _ E). destruct (tok_eqb (tk t) SEMI) eqn:D; auto. apply tok_eqb_eq in D. rewrite D in K. destruct K. }
    rewrite Ns. apply cs_the_tbl with (g := fun l n => _). rewrite X1, E0, Sy. destruct (tag_eq_dec g GVoid); [contradiction|]. rewrite <- (app_nil_r a) in E.
    eapply cs_expr with (g := fun rhs n => _) (1 := E) (3 := Sp); [congruence|cbn; rewrite Ex; exact St|]. clear E. intros s2 E X2. apply cs_end; congruence.
  - (* break *) intros T b x Kb s s' E E0 E1 Ex. apply ev_S. cbn [parse_stmt]. ev1. tokis E Kb. eapply cs_next; [exact E|]. clear E. intros s1 E X1.
    apply cs_line with (g := fun l n => _). rewrite (ahead_of _ _ _ E). cbn [ahead hd]. rewrite Ex. apply cs_end; congruence.
  - (* continue *) intros T b x Kb s s' E E0 E1 Ex. apply ev_S. cbn [parse_stmt]. ev1. tokis E Kb. apply cs_line with (g := fun l n => _). rewrite (eats_hd _ _ _ _ E).
    eapply cs_next; [exact E|]. clear E. intros s1 E X1. apply cs_end; congruence.
  - (* use *) intros T u t m o a args c b y x Ku Fn Sc Kt Lt Ko Sa Kc Sb s s' E E0 E1 Ex. apply ev_S. cbn [parse_stmt]. ev1. tokis E Ku. apply cs_the_tbl with (g := fun l n => _). rewrite E0, Fn, Sc.
    change (0 =? 0) with true. cbv iota. apply cs_line with (g := fun l n => _). rewrite (eats_hd _ _ _ _ E). unfold parse_use.
    eapply cs_get; [exact E|exact Kt|]. clear E. intros s1 E X1. eapply cs_lexeme with (g := fun l n => _); [exact E|exact Lt|].
    eapply cs_get; [exact E|exact Ko|]. clear E. intros s2 E X2. eapply cs_next; [exact E|]. clear E. intros s3 E X3.
    eapply cs_sub with (g := fun ps n => _) (T' := T) (1 := E); [intros s4 Ea Ta Tk; apply (use_args_ev _ _ Sa _ _ Ea); [congruence|rewrite Tk; exact Kc]|]. clear E. intros s4 E X4.
    eapply cs_next; [exact E|]. clear E. intros s5 E X5. ev1. inversion Sb as [z Nz|k0 t0 y0 z Kk Lk Kt0 Lt0]; subst.
    + rewrite (ahead_of _ _ _ E). cbn [ahead hd]. destruct (tok_eqb (tk (ps_tok s')) IDENT) eqn:D.
      * apply tok_eqb_eq in D. destruct (Nz D) as (w & Lw & Nw). apply eats_end in E; [|congruence]. subst s5. eapply ev_lexeme with (g := fun l n => _); [exact Lw|].
        destruct (text_eqb w (text_of "as")) eqn:Da; [apply text_eqb_eq in Da; contradiction|]. apply ev_ret.
      * apply cs_end; congruence.
    + tokis E Kk. iftok. eapply cs_lexeme with (g := fun l n => _); [exact E|exact Lk|]. rewrite text_eqb_refl.
      eapply cs_get; [exact E|exact Kt0|]. clear E. intros s6 E X6. eapply cs_lexeme with (g := fun l n => _); [exact E|exact Lt0|]. eapply cs_next; [exact E|]. clear E. intros s7 E X7.
      apply cs_end; congruence.
  - (* call *) intros T a x f es T' Hd s s' E E0 E1 Ex. apply simple_ev. { rewrite <- (app_nil_r a) in E. eapply head_simple; eauto. }
    unfold parse_simple. apply cs_line with (g := fun l n => _).
    assert (Hh : ps_tok s = hd x a). { destruct a; [destruct Hd as (Sp & _); destruct (sp_nonempty _ _ _ _ _ Sp eq_refl)|]. exact (eats_hd _ _ _ _ E). }
    rewrite Hh. rewrite <- (app_nil_r a) in E. rewrite <- Ex in Hd. eapply cs_factor with (g := fun rhs n => _) (1 := E) (3 := Hd); [congruence|]. clear E. intros s1 E X1. apply cs_end; congruence.
  - (* := *) intros T t y r d v T1 a e x T' Kt Lt Rv Kd Dc Sp St s s' E E0 E1 Ex. change (t :: d :: a) with ([t] ++ d :: a) in E.
    assert (Hd : head_of T [t] (EId y r) T DECLARE).
    { split; [apply sp_up; [lia|]; eapply sp_id; eauto|]. cbn [hd]. rewrite Kt. split; [discriminate|]. split; [intros [X|[X|X]]; discriminate X|]. split; [intros _; discriminate|]. intros _ ([] & X); discriminate X. }
    apply simple_ev; [eapply head_simple; eauto|]. unfold parse_simple. apply cs_line with (g := fun l n => _).
    eapply cs_factor with (g := fun rhs n => _) (1 := E) (e := EId y r) (T := T) (T' := T); [congruence|cbn; rewrite Kd; exact Hd|]. clear E. intros s1 E X1. cbv beta iota.
    ev1. tokis E Kd. apply cs_line with (g := fun l n => _). rewrite (eats_hd _ _ _ _ E). iftok. cbn [orb].
    assert (M : cbind the_tbl (fun tb => cbind (on_tbl (match tb_func tb with Some _ => declare_local y | None => declare_global y end)) (fun r0 => cret (EId y (Some r0), DECLARE))) s1 = COk (EId y (Some v), DECLARE) (retbl s1 T1)).
    { unfold cbind. rewrite (eq_refl : the_tbl s1 = on_tbl cget s1). unfold the_tbl, on_tbl, cget. cbn [ps_tbl ps_toks ps_end ps_tok]. rewrite X1. unfold declares in Dc. destruct (tb_func T); rewrite Dc; reflexivity. }
    eapply ev_bind with (f := fun _ => _) (g := fun rhs n => _); [apply ev_const; exact M|]. cbv beta iota. apply eats_left with (t := T1) in E. rewrite <- Ex in St. rewrite <- E1 in Sp.
    apply (finish_ev (tk_line d) DECLARE (EId y (Some v)) _ _ _ _ _ T1 E); auto. discriminate.
  - (* x: t = e *) intros T t y r c v T1 b g T2 T3 q a e x T' Kt Lt Rv Kc Dc Sb Sv Kq Sp St s s' E E0 E1 Ex. change (t :: c :: b ++ q :: a) with ([t] ++ c :: b ++ q :: a) in E.
    assert (Hd : head_of T [t] (EId y r) T COLON).
    { split; [apply sp_up; [lia|]; eapply sp_id; eauto|]. cbn [hd]. rewrite Kt. split; [discriminate|]. split; [intros [X|[X|X]]; discriminate X|]. split; [intros _; discriminate|]. intros _ ([] & X); discriminate X. }
    apply simple_ev; [eapply head_simple; eauto|]. unfold parse_simple. apply cs_line with (g := fun l n => _).
    eapply cs_factor with (g := fun rhs n => _) (1 := E) (e := EId y r) (T := T) (T' := T); [congruence|cbn; rewrite Kc; exact Hd|]. clear E. intros s1 E X1. cbv beta iota.
    ev1. tokis E Kc. apply cs_line with (g := fun l n => _). rewrite (eats_hd _ _ _ _ E). iftok. cbn [orb].
    apply eats_left with (t := T1) in E. apply eats_one in E as (s2 & _ & N & E & X2). apply (eats_mid _ _ _ _ T2) in E as (s3 & Eb & E & X3).
    assert (Pt : parse_type s2 = COk g s3). { eapply type_of; [exact Sb|exact Eb|cbn in X2; congruence|auto|]. rewrite (eats_hd _ _ _ _ E), Kq. discriminate. }
    eapply ev_bind with (f := fun _ => _) (g := fun rhs n => _) (a := (EId y (Some v), EQUAL)) (s1 := retbl s3 T3).
    { apply ev_const. unfold cbind at 1. unfold the_tbl, on_tbl at 1, cget. cbn [ps_tbl ps_toks ps_end ps_tok]. rewrite X1.
      change (mkPst T (ps_toks s1) (ps_end s1) (ps_tok s1)) with (retbl s1 T). rewrite <- X1, retbl_self.
      unfold cbind. unfold on_tbl at 1. rewrite X1. unfold declares in Dc.
      replace (match tb_func T with Some _ => declare_local y | None => declare_global y end T) with (COk v T1 : cres tbl vref) by (destruct (tb_func T); auto).
      change (mkPst T1 (ps_toks s1) (ps_end s1) (ps_tok s1)) with (retbl s1 T1). rewrite N, Pt. unfold on_tbl. rewrite X3, Sv.
      unfold expect, cbind, last_tok. cbn [ps_tok]. rewrite (eats_hd _ _ _ _ E), Kq. iftok. unfold cret, retbl. rewrite (eats_hd _ _ _ _ E). reflexivity. }
    cbv beta iota. apply eats_left with (t := T3) in E. rewrite <- Ex in St. rewrite <- E1 in Sp.
    apply (finish_ev (tk_line c) EQUAL (EId y (Some v)) _ _ _ _ _ T3 E); auto. discriminate.
  - (* const *) intros T a y r T1 d b e k x T2 T' Hd Kd Sp St Ck Dk s s' E E0 E1 Ex. apply simple_ev; [eapply head_simple; eauto|]. unfold parse_simple. apply cs_line with (g := fun l n => _).
    eapply cs_factor with (g := fun rhs n => _) (1 := E) (e := EId y r) (T := T) (T' := T1); [congruence|cbn; rewrite Kd; exact Hd|]. clear E. intros s1 E X1. cbv beta iota.
    ev1. tokis E Kd. apply cs_line with (g := fun l n => _). rewrite (eats_hd _ _ _ _ E). iftok. cbn [orb].
    eapply ev_bind with (f := fun _ => _) (g := fun rhs n => _); [apply ev_const; reflexivity|]. cbv beta iota. rewrite <- Ex in St. rewrite <- E1 in Dk.
    apply (finish_const (tk_line d) y r _ _ _ _ _ _ _ _ E X1 Sp St Ck Dk).
  - (* assign *) intros T a l T1 o b e x T' Hd Nc No Nd Nl Nk Sp St s s' E E0 E1 Ex. apply simple_ev; [eapply head_simple; eauto|]. unfold parse_simple. apply cs_line with (g := fun l n => _).
    eapply cs_factor with (g := fun rhs n => _) (1 := E) (3 := Hd); [congruence|]. clear E. intros s1 E X1.
    assert (G : ev (fun n => op <- last_tok ;; line <- the_line ;;
      ' (lhs', op') <-
        (if tok_eqb op DECLARE || tok_eqb op COLON then
           match l with
           | EId name _ =>
               tb <- the_tbl ;;
               r <- on_tbl (match tb_func tb with
                            | Some _ => declare_local name
                            | None => declare_global name end) ;;
               if tok_eqb op COLON then
                 next_token ;;;
                 g <- parse_type ;;
                 on_tbl (set_var_tag r g) ;;;
                 expect EQUAL ;;;
                 cret (EId name (Some r), EQUAL)
               else cret (EId name (Some r), op)
           | _ => cfail
           end
         else cret (l, op)) ;;
       finish n line op' lhs') s1 (SAsg (tk_line o) (tk o) l e) s').
    { ev1. rewrite (eats_hd _ _ _ _ E). apply cs_line with (g := fun l n => _). rewrite (eats_hd _ _ _ _ E).
      destruct (tok_eqb (tk o) DECLARE) eqn:D1; [apply tok_eqb_eq in D1; contradiction|]. destruct (tok_eqb (tk o) COLON) eqn:D2; [apply tok_eqb_eq in D2; contradiction|]. cbn [orb].
      eapply ev_bind with (f := fun _ => _) (g := fun rhs n => _); [apply ev_const; reflexivity|]. cbv beta iota. rewrite <- Ex in St. rewrite <- E1 in Sp.
      apply no_prec in No. apply (finish_ev (tk_line o) (tk o) l _ _ _ _ _ _ E X1); auto. }
    destruct l; try exact G. destruct Nc. eexists _, _. reflexivity.
  - (* none *) intros T x s s' E E0 E1 Ex K. apply eats_end in E; [|congruence]. subst s'. apply ev_S. cbn [parse_block]. ev1. rewrite Ex, K. iftok. apply ev_ret.
  - (* more *) intros T a st T1 b x ss T' Sa G _ Gb s s' E E0 E1 Ex K. apply ev_S. cbn [parse_block]. ev1.
    assert (Nc : tok_eqb (tk (ps_tok s)) CLOSECURLY = false).
    { apply sentence_starts in Sa as (t & a' & -> & Ks). rewrite (eats_hd _ _ _ _ E). destruct (tok_eqb (tk t) CLOSECURLY) eqn:D; auto. apply tok_eqb_eq in D. rewrite D in Ks. destruct Ks. }
    rewrite Nc. eapply cs_sub with (g := fun ps n => _) (T' := T1) (1 := E); [intros s1 Ea Ta Tk; apply (G _ _ Ea); [congruence|auto|rewrite Tk, Ex; reflexivity]|]. clear E. intros s1 E X1.
    eapply ev_bind with (g := fun ss n => _); [apply (Gb _ _ E); auto|]. apply ev_ret.
Qed.

Lemma fields_ev id T a T' : spells_fields id T a T' -> forall s s', eats s a s' -> ps_tbl s = T -> ps_tbl s' = T' -> tk (ps_tok s') = CLOSECURLY ->
  ev (fun n => parse_fields n id) s tt s'.
Proof.
  induction 1 as [T|T t x c a g T1 nm d fs b T' nm' d' fs' Kt Lt Kc Sy Ln Fi St Sy' Sb IH]; intros s s' E E0 E1 K.
  - apply eats_end in E; [|congruence]. subst. apply ev_S. cbn [parse_fields]. ev1. rewrite K. iftok. apply ev_ret.
  - apply ev_S. cbn [parse_fields]. ev1. tokis E Kt. iftok. eapply cs_expect; [exact E|exact Kt|]. eapply cs_lexeme with (g := fun x n => _); [exact E|exact Lt|].
    apply cs_the_tbl with (g := fun l n => _). rewrite E0, Sy. destruct (Nat.leb_spec 255 (length fs)); [lia|]. rewrite Fi.
    eapply cs_get; [exact E|exact Kc|]. clear E. intros s1 E X1. eapply cs_next; [exact E|]. clear E. intros s2 E X2.
    eapply cs_type with (g := fun x n => _) (1 := E) (3 := St); [congruence| |].
    { inversion Sb; subst; cbn [ahead hd]; [rewrite K; discriminate|]. match goal with X : tk ?u = IDENT |- tk ?u <> _ => rewrite X; discriminate end. }
    clear E. intros s3 E X3. eapply cs_tbl with (g := fun _ n => _); [rewrite X3, Sy'; reflexivity|exact E|]. clear E. intros s4 E X4 _.
    apply (IH _ _ E); auto.
Qed.

Lemma struct_ev T a T' : spells_struct T a T' -> forall s s', eats s a s' -> ps_tbl s = T -> ps_tbl s' = T' -> ev parse_struct s tt s'.
Proof.
  intros H s s' E E0 E1. inversion H as [? st t x id T1 nm fs o a0 c ? nm' d' f fs' Ks Fn Kt Lt Ds Sy Ko Sf Kc Sy']; subst.
  unfold parse_struct. apply cs_the_tbl with (g := fun l n => _). rewrite Fn.
  eapply cs_get; [exact E|exact Kt|]. clear E. intros s1 E X1. eapply cs_lexeme with (g := fun x n => _); [exact E|exact Lt|].
  eapply cs_tbl with (g := fun _ n => _); [rewrite X1; exact Ds|exact E|]. clear E. intros s2 E X2 _.
  apply cs_the_tbl with (g := fun l n => _). rewrite X2, Sy. eapply cs_mod; [exact E|]. clear E. intros s3 E X3 _. rewrite X2 in X3.
  eapply cs_get; [exact E|exact Ko|]. clear E. intros s4 E X4. eapply cs_next; [exact E|]. clear E. intros s5 E X5.
  eapply cs_sub with (g := fun ps n => _) (T' := ps_tbl s') (1 := E); [intros s6 Ea Ta Tk; apply (fields_ev _ _ _ _ Sf _ _ Ea); [congruence|auto|rewrite Tk; exact Kc]|]. clear E. intros s6 E X6.
  eapply cs_next; [exact E|]. clear E. intros s7 E X7. apply cs_the_tbl with (g := fun l n => _). rewrite X7, X6, Sy'. apply cs_end; congruence.
Qed.
Lemma struct_first T a T' : spells_struct T a T' -> exists t a', a = t :: a' /\ tk t = STRUCT.
Proof. intros H. inversion H; subst. eauto. Qed.

Theorem top_complete T a x ss T' : program T a x ss T' -> forall s s', eats s a s' -> ps_tbl s = T -> ps_tbl s' = T' -> ps_tok s' = x -> ev parse_top s ss s'.
Proof.
  induction 1 as [T x K|T a T1 b x ss T' Sa Pb IH|T a st T1 b x ss T' Sa Pb IH]; intros s s' E E0 E1 Ex; apply ev_S; cbn [parse_top]; ev1.
  - apply eats_end in E; [|congruence]. subst s'. rewrite Ex, K. apply ev_ret.
  - destruct (struct_first _ _ _ Sa) as (t & a' & -> & K). rewrite (eats_hd _ _ _ _ E), K.
    eapply cs_sub with (g := fun ps n => _) (T' := T1) (1 := E); [intros s1 Ea Ta Tk; apply (struct_ev _ _ _ Sa _ _ Ea); auto|]. clear E. intros s1 E X1.
    apply (IH _ _ E); auto.
  - assert (G : ev (fun n => st <- parse_stmt n ;; ss0 <- parse_top n ;; cret (st :: ss0)) s (st :: ss) s').
    { eapply cs_sub with (g := fun ps n => _) (T' := T1) (1 := E); [intros s1 Ea Ta Tk; apply (proj1 stmts_complete _ _ _ _ _ Sa _ _ Ea); auto; rewrite Tk, Ex; reflexivity|].
      clear E. intros s1 E X1. eapply ev_bind with (g := fun ss n => _); [apply (IH _ _ E); auto|]. apply ev_ret. }
    apply sentence_starts in Sa as (t & a' & -> & Ks). rewrite (eats_hd _ _ _ _ E). destruct (tk t); try exact G; destruct Ks.
Qed.
