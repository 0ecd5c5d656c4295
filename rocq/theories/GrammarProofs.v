(** * The parser accepts exactly the grammar of Grammar.v *)
From Verif Require Import Base Token Lexer Values Syntax Symbols Parser Grammar.
Local Open Scope nat_scope.
Local Open Scope cm_scope.

(** ** Moving along the tokens *)
Lemma retbl_self s : retbl s (ps_tbl s) = s.
Proof. destruct s. reflexivity. Qed.
Lemma eats_refl s : eats s [] s.
Proof. rewrite <- (retbl_self s) at 2. constructor. Qed.
Lemma next_retbl s s1 t : next_token s = COk tt s1 -> next_token (retbl s t) = COk tt (retbl s1 t).
Proof.
  unfold next_token, retbl. cbn. destruct (ps_toks s); [destruct (ps_end s) eqn:E|]; try discriminate; intros [= <-]; reflexivity.
Qed.
Lemma next_tbl s s1 : next_token s = COk tt s1 -> ps_tbl s1 = ps_tbl s.
Proof. unfold next_token. destruct (ps_toks s); [destruct (ps_end s)|]; try discriminate; intros [= <-]; reflexivity. Qed.
Lemma eats_left s a s' : eats s a s' -> forall t, eats (retbl s t) a s'.
Proof.
  induction 1 as [s u|s s1 a s' N E IH]; intros t.
  - change (retbl s u) with (retbl (retbl s t) u). constructor.
  - change (ps_tok s) with (ps_tok (retbl s t)). econstructor; [apply next_retbl; eauto|auto].
Qed.
Lemma eats_right s a s' : eats s a s' -> forall t, eats s a (retbl s' t).
Proof.
  induction 1 as [s u|s s1 a s' N E IH]; intros t; [|econstructor; eauto]. change (retbl (retbl s u) t) with (retbl s t). constructor.
Qed.
Lemma eats_trans s a s1 b s2 : eats s a s1 -> eats s1 b s2 -> eats s (a ++ b) s2.
Proof.
  induction 1 as [s u|s s1 a s' N E IH]; intros B; cbn.
  - pose proof (eats_left _ _ _ B (ps_tbl s)) as X. change (retbl (retbl s u) (ps_tbl s)) with (retbl s (ps_tbl s)) in X. rewrite retbl_self in X. exact X.
  - econstructor; eauto.
Qed.
Lemma eats_split s a b s2 : eats s (a ++ b) s2 -> exists s1, eats s a s1 /\ eats s1 b s2 /\ ps_tbl s1 = ps_tbl s.
Proof.
  revert s. induction a as [|x a IH]; cbn; intros s E; [exists s; split; [apply eats_refl|auto]|].
  inversion E as [|? s1 ? ? N E']; subst. destruct (IH _ E') as (s3 & A & B & Tb). exists s3. split; [econstructor; eauto|]. split; auto.
  rewrite Tb. apply next_tbl; auto.
Qed.
Lemma eats_mid s a b s2 t : eats s (a ++ b) s2 -> exists s1, eats s a s1 /\ eats s1 b s2 /\ ps_tbl s1 = t.
Proof. intros E. apply eats_split in E as (s1 & A & B & _). exists (retbl s1 t). split; [apply eats_right; auto|]. split; [apply eats_left; auto|reflexivity]. Qed.
Lemma eats_end s s' : eats s [] s' -> ps_tbl s = ps_tbl s' -> s = s'.
Proof. intros E T. inversion E; subst. cbn in T. rewrite <- T. symmetry. apply retbl_self. Qed.
Lemma eats_one s x a s2 : eats s (x :: a) s2 -> exists s1, ps_tok s = x /\ next_token s = COk tt s1 /\ eats s1 a s2 /\ ps_tbl s1 = ps_tbl s.
Proof. intros E. inversion E as [|? s1 ? ? N E']; subst. exists s1. repeat split; auto. apply next_tbl; auto. Qed.
Lemma eats_step s s1 : next_token s = COk tt s1 -> eats s [ps_tok s] s1.
Proof. intros N. econstructor; [exact N|apply eats_refl]. Qed.
Lemma eats_none s s' : eats s [] s' -> s' = retbl s (ps_tbl s').
Proof. intros E. inversion E; subst. reflexivity. Qed.
Lemma eats_hd s x a s' : eats s (x :: a) s' -> ps_tok s = x.
Proof. intros E. apply eats_one in E as (? & ? & _). auto. Qed.

(** ** Answers with enough recursion *)
Definition ev {A} (f : nat -> pm A) (s : pst) (a : A) (s' : pst) : Prop := exists n0, forall n, n0 <= n -> f n s = COk a s'.
Lemma ev_bind {A B} (f : nat -> pm A) (g : A -> nat -> pm B) s a s1 b s2 :
  ev f s a s1 -> ev (g a) s1 b s2 -> ev (fun n => cbind (f n) (fun a => g a n)) s b s2.
Proof.
  intros (n0 & F) (n1 & G). exists (Nat.max n0 n1). intros n L. unfold cbind. rewrite F by lia. apply G. lia.
Qed.
Lemma ev_const {A} (m : pm A) s a s' : m s = COk a s' -> ev (fun _ => m) s a s'.
Proof. exists 0. auto. Qed.
Lemma ev_S {A} (f : nat -> pm A) s a s' : ev (fun n => f (S n)) s a s' -> ev f s a s'.
Proof. intros (n0 & F). exists (S n0). intros [|n] L; [lia|]. apply F. lia. Qed.
Lemma ev_step {A} (g : nat -> pm A) s s1 a s' : next_token s = COk tt s1 -> ev g s1 a s' -> ev (fun n => cbind next_token (fun _ => g n)) s a s'.
Proof. intros N E. apply (ev_bind (fun _ => next_token) (fun _ n => g n) s tt s1); auto. apply ev_const; auto. Qed.
Lemma ev_last {A} (g : tokkind -> nat -> pm A) s a s' : ev (g (tk (ps_tok s))) s a s' -> ev (fun n => cbind last_tok (fun t => g t n)) s a s'.
Proof. intros E. apply (ev_bind (fun _ => last_tok) g s (tk (ps_tok s)) s); auto. apply ev_const; reflexivity. Qed.
Lemma ev_expect {A} k (g : nat -> pm A) s a s' : tk (ps_tok s) = k -> ev g s a s' -> ev (fun n => cbind (expect k) (fun _ => g n)) s a s'.
Proof.
  intros K E. apply (ev_bind (fun _ => expect k) (fun _ n => g n) s tt s); auto. apply ev_const. unfold expect, cbind, last_tok, cret.
  rewrite K. replace (tok_eqb k k) with true by (symmetry; apply tok_eqb_eq; reflexivity). reflexivity.
Qed.
Lemma ev_get {A} k (g : nat -> pm A) s s1 a s' : next_token s = COk tt s1 -> tk (ps_tok s1) = k -> ev g s1 a s' -> ev (fun n => cbind (get_expect k) (fun _ => g n)) s a s'.
Proof.
  intros N K E. apply (ev_bind (fun _ => get_expect k) (fun _ n => g n) s tt s1); auto. apply ev_const. unfold get_expect, expect, cbind, last_tok, cret.
  rewrite N, K. replace (tok_eqb k k) with true by (symmetry; apply tok_eqb_eq; reflexivity). reflexivity.
Qed.
Lemma ev_lexeme {A} x (g : text -> nat -> pm A) s a s' : tk_lexeme (ps_tok s) = Some x -> ev (g x) s a s' -> ev (fun n => cbind lexeme (fun x => g x n)) s a s'.
Proof. intros K E. apply (ev_bind (fun _ => lexeme) g s x s); auto. apply ev_const. unfold lexeme. rewrite K. reflexivity. Qed.
Lemma ev_tbl {A B} (m : tbl -> cres tbl A) (g : A -> nat -> pm B) s x t a s' : m (ps_tbl s) = COk x t ->
  ev (g x) (retbl s t) a s' -> ev (fun n => cbind (on_tbl m) (fun x => g x n)) s a s'.
Proof. intros K E. apply (ev_bind (fun _ => on_tbl m) g s x (retbl s t)); auto. apply ev_const. unfold on_tbl. rewrite K. reflexivity. Qed.
Lemma ev_ret {A} (a : A) s : ev (fun _ => cret a) s a s.
Proof. apply ev_const. reflexivity. Qed.
Lemma ev_int {A} (g : Z -> nat -> pm A) s a s' : ev (g (tk_i (ps_tok s))) s a s' -> ev (fun n => cbind the_int (fun t => g t n)) s a s'.
Proof. intros E. apply (ev_bind (fun _ => the_int) g s (tk_i (ps_tok s)) s); auto. apply ev_const; reflexivity. Qed.

(** ** More recursion does not change an answer *)
Definition less {A} (m m' : pm A) : Prop := forall s, m s = CFuel \/ m s = m' s.
Lemma less_refl {A} (m : pm A) : less m m.
Proof. intros s. auto. Qed.
Lemma less_fuel {A} (m : pm A) : less (fun _ => CFuel) m.
Proof. intros s. auto. Qed.
Lemma less_bind {A B} (m m' : pm A) (f f' : A -> pm B) : less m m' -> (forall a, less (f a) (f' a)) -> less (cbind m f) (cbind m' f').
Proof. intros L F s. unfold cbind. destruct (L s) as [->| <-]; auto. destruct (m s); auto. apply F. Qed.
Record grows_n (n m : nat) : Prop := {
  gn_expr : less (parse_expr n) (parse_expr m);
  gn_factor : less (parse_factor n) (parse_factor m);
  gn_rhs : forall p e, less (parse_rhs n p e) (parse_rhs m p e);
  gn_suffix : forall e, less (parse_suffix n e) (parse_suffix m e);
  gn_value : less (parse_value n) (parse_value m);
  gn_dots : forall e, less (parse_dots n e) (parse_dots m e);
  gn_call : less (parse_call n) (parse_call m);
  gn_args : less (parse_args n) (parse_args m);
  gn_new : less (parse_new n) (parse_new m)
}.
Lemma less_eta {A} (f f' : pst -> pm A) : (forall s, less (f s) (f' s)) -> less (fun s => f s s) (fun s => f' s s).
Proof. intros H s. apply H. Qed.
Ltac ls := repeat first [assumption|apply less_refl|match goal with H : forall _, _ |- _ => apply H end|apply less_bind; [|intro]
  |match goal with |- less (match ?x with _ => _ end) _ => destruct x end].
Lemma exprs_grow n : forall m, n <= m -> grows_n n m.
Proof.
  induction n as [|n IH]; intros m L; [constructor; intros; apply less_fuel|]. destruct m as [|m]; [lia|].
  destruct (IH m ltac:(lia)) as [He Hf Hr Hs Hv Hd Hc Ha Hn]. clear IH L.
  constructor; intros; cbn [parse_expr parse_factor parse_rhs parse_suffix parse_value parse_dots parse_call parse_args parse_new]; ls.
Qed.
Lemma ev_some {A} (f : nat -> pm A) n s a s' : (forall m, n <= m -> less (f n) (f m)) -> f n s = COk a s' -> ev f s a s'.
Proof. intros L E. exists n. intros m Lm. destruct (L m Lm s) as [X|X]; congruence. Qed.

(** ** Precedence *)
Lemma prec_bop o : prec_of (bop_token o) = Some (strength o) /\ bop_of (bop_token o) = Some o.
Proof. destruct o; split; reflexivity. Qed.
Lemma bop_prec k p : prec_of k = Some p -> exists o, k = bop_token o /\ p = strength o /\ bop_of k = Some o.
Proof.
  destruct k; cbn; try discriminate; intros [= <-].
  all: first [exists BMul; repeat split; fail|exists BDiv; repeat split; fail|exists BMod; repeat split; fail|exists BAnd; repeat split; fail
    |exists BOr; repeat split; fail|exists BShl; repeat split; fail|exists BShr; repeat split; fail|exists BAdd; repeat split; fail|exists BSub; repeat split; fail
    |exists BLte; repeat split; fail|exists BGte; repeat split; fail|exists BEq; repeat split; fail|exists BNe; repeat split; fail|exists BLt; repeat split; fail
    |exists BGt; repeat split; fail|exists BLand; repeat split; fail|exists BLor; repeat split; fail].
Qed.
Lemma no_prec k : ~ is_bop k <-> prec_of k = None.
Proof.
  split.
  - intros N. destruct (prec_of k) eqn:E; auto. apply bop_prec in E as (o & -> & _). destruct N. exists o. reflexivity.
  - intros E (o & ->). destruct (prec_bop o). congruence.
Qed.
Lemma strength_range o : 2 <= strength o <= 5.
Proof. destruct o; cbn; lia. Qed.

(** What may follow a spelling of level [p] *)
Definition weaker (p : nat) (e : expr) (k : tokkind) : Prop :=
  match prec_of k with Some q => q <= p /\ ends_open e = false | None => True end.
Definition calm (e : expr) (k : tokkind) : Prop := ~ is_suffix k /\ no_call e k.

Definition then_rhs (q : nat) (n : nat) : pm expr := f <- parse_factor n ;; parse_rhs n q f.
Definition then_suffix (n : nat) : pm expr := e <- parse_value n ;; parse_suffix n e.

Definition good_at (p : nat) (T : tbl) (a : list token) (e : expr) (T' : tbl) : Prop :=
  forall s s1, eats s a s1 -> ps_tbl s = T -> ps_tbl s1 = T' ->
  if p <=? 5 then forall q r s2, q <= p -> calm e (tk (ps_tok s1)) -> weaker p e (tk (ps_tok s1)) ->
      ev (fun n => parse_rhs n q e) s1 r s2 -> ev (then_rhs q) s r s2
  else if p =? 6 then calm e (tk (ps_tok s1)) -> weaker 6 e (tk (ps_tok s1)) -> ev parse_factor s e s1
  else no_call e (tk (ps_tok s1)) -> forall r s2, ev (fun n => parse_suffix n e) s1 r s2 -> ev then_suffix s r s2.

Lemma suffix_stop s e : ~ is_suffix (tk (ps_tok s)) -> ev (fun n => parse_suffix n e) s e s.
Proof.
  intros N. apply ev_S. cbn [parse_suffix]. apply ev_last with (g := fun t n => _). unfold is_suffix in N.
  destruct (tk (ps_tok s)); try apply ev_ret; exfalso; apply N; auto.
Qed.
Lemma rhs_stop s q e : (forall p, prec_of (tk (ps_tok s)) = Some p -> p < q) -> ev (fun n => parse_rhs n q e) s e s.
Proof.
  intros N. apply ev_S. cbn [parse_rhs]. apply ev_last with (g := fun t n => _).
  destruct (prec_of (tk (ps_tok s))) as [p|] eqn:E; [|apply ev_ret]. destruct (bop_prec _ _ E) as (o & _ & _ & ->).
  specialize (N p eq_refl). apply Nat.ltb_lt in N. rewrite N. apply ev_ret.
Qed.
Lemma ev_expr s e s1 : ev (then_rhs 0) s e s1 -> ev parse_expr s e s1.
Proof. intros E. apply ev_S. exact E. Qed.
Lemma ev_factor s e s1 : ev then_suffix s e s1 -> ev parse_factor s e s1.
Proof. intros E. apply ev_S. exact E. Qed.

Definition starts_value (k : tokkind) : bool :=
  match k with CLOSEPAREN | CLOSECURLY | COMMA | DOT | CLOSESQUARE => false | _ => true end.
Lemma spells_first : (forall p T a e T', spells p T a e T' -> exists x a', a = x :: a' /\ starts_value (tk x) = true).
Proof.
  apply (spells_mind (fun p T a e T' => exists x a', a = x :: a' /\ starts_value (tk x) = true) (fun _ _ _ _ => True) (fun _ _ _ _ _ => True)); intros; auto;
    repeat match goal with H : exists x a', ?a = x :: a' /\ _ |- _ => destruct H as (? & ? & -> & ?) end; cbn;
    try (eexists _, _; split; [reflexivity|]; first [assumption|match goal with H : tk ?t = _ |- context [tk ?t] => rewrite H; reflexivity end]; fail).
Qed.

Definition good_args (T : tbl) (a : list token) (es : list expr) (T' : tbl) : Prop :=
  forall s s1, eats s a s1 -> ps_tbl s = T -> ps_tbl s1 = T' -> tk (ps_tok s1) = CLOSEPAREN -> ev parse_args s es s1.
Definition good_inits (T : tbl) (a : list token) (ns : list text) (es : list expr) (T' : tbl) : Prop :=
  forall s s1, eats s a s1 -> ps_tbl s = T -> ps_tbl s1 = T' -> tk (ps_tok s1) = CLOSECURLY -> ev parse_new s (ns, es) s1.

Lemma expr_of T a e T' s s1 : good_at 0 T a e T' -> eats s a s1 -> ps_tbl s = T -> ps_tbl s1 = T' -> stops e (tk (ps_tok s1)) -> ev parse_expr s e s1.
Proof.
  intros G E T0 T1 (S1 & S2 & S3). apply ev_expr. apply no_prec in S2. apply (G s s1 E T0 T1 0 e s1); auto.
  - split; auto.
  - unfold weaker. rewrite S2. exact I.
  - apply rhs_stop. rewrite S2. discriminate.
Qed.
Lemma stops_k e k : prec_of k = None -> (forall x, k <> x \/ (x <> OPENSQUARE /\ x <> DOT /\ x <> ARROW /\ x <> OPENPAREN)) -> stops e k.
Proof.
  intros P N. split; [|split].
  - intros [->|[->| ->]]; [destruct (N OPENSQUARE)|destruct (N DOT)|destruct (N ARROW)]; tauto.
  - apply no_prec; auto.
  - intros _ ->. destruct (N OPENPAREN); tauto.
Qed.
Ltac stopk := match goal with H : tk (ps_tok ?s) = _ |- stops _ (tk (ps_tok ?s)) => rewrite H end; split; [intros [D|[D|D]]; discriminate D|split; [intros ([] & D); discriminate D|intros _ D; discriminate D]].

Ltac one E := let s := fresh "s" in let K := fresh "K" in let N := fresh "N" in let T := fresh "T" in
  apply eats_one in E as (s & K & N & E & T).
Ltac eq_t := congruence.

Lemma type_of T a g T' s s1 : spells_type T a g T' -> eats s a s1 -> ps_tbl s = T -> ps_tbl s1 = T' -> tk (ps_tok s1) <> QUESTION ->
  parse_type s = COk g s1.
Proof.
  intros St E T0 T1 Q. unfold parse_type, expect, cbind, last_tok, cret. inversion St as [? t x g0 ? Kt Lt Tg|? t x g0 Tm q g' ? Kt Lt Tg Nv Kq Nu]; subst.
  - one E. rewrite K, Kt. try change (tok_eqb IDENT IDENT) with true; try change (tok_eqb QUESTION QUESTION) with true; cbv beta iota. unfold lexeme. rewrite K, Lt. unfold on_tbl. rewrite Tg. fold (retbl s (ps_tbl s1)).
    rewrite (next_retbl _ _ (ps_tbl s1) N). apply eats_none in E. cbn [retbl ps_tok]. 
    replace (tk (ps_tok s0)) with (tk (ps_tok s1)) by (rewrite E; reflexivity).
    destruct (tok_eqb (tk (ps_tok s1)) QUESTION) eqn:D; [apply tok_eqb_eq in D; contradiction|]. rewrite E. cbn. f_equal. 
  - one E. one E. rewrite K, Kt. try change (tok_eqb IDENT IDENT) with true; try change (tok_eqb QUESTION QUESTION) with true; cbv beta iota. unfold lexeme. rewrite K, Lt. unfold on_tbl. rewrite Tg. fold (retbl s Tm).
    rewrite (next_retbl _ _ Tm N). cbn [retbl ps_tok]. rewrite K0, Kq. try change (tok_eqb IDENT IDENT) with true; try change (tok_eqb QUESTION QUESTION) with true; cbv beta iota. destruct (tag_eq_dec g0 GVoid); [contradiction|].
    cbv beta iota. cbn [ps_tbl retbl]. rewrite Nu. change (mkPst (ps_tbl s1) (ps_toks (retbl s0 Tm)) (ps_end (retbl s0 Tm)) (ps_tok (retbl s0 Tm))) with (retbl s0 (ps_tbl s1)). rewrite (next_retbl _ _ (ps_tbl s1) N0).
    apply eats_none in E. rewrite E. reflexivity.
Qed.
Lemma ev_type {A} (g : tag -> nat -> pm A) s x s1 a s' : parse_type s = COk x s1 -> ev (g x) s1 a s' -> ev (fun n => cbind parse_type (fun t => g t n)) s a s'.
Proof. intros K E. apply (ev_bind (fun _ => parse_type) g s x s1); auto. apply ev_const; auto. Qed.

Ltac ev1 := match goal with
  | |- ev (fun n => cbind last_tok _) _ _ _ => eapply ev_last with (g := fun t n => _)
  | N : next_token ?s = COk tt _ |- ev (fun n => cbind next_token _) ?s _ _ => eapply ev_step; [exact N|]
  | |- ev (fun n => cbind (expect _) _) _ _ _ => eapply ev_expect; [congruence|]
  | N : next_token ?s = COk tt _ |- ev (fun n => cbind (get_expect _) _) ?s _ _ => eapply ev_get; [exact N|congruence|]
  | |- ev (fun n => cbind lexeme _) _ _ _ => eapply ev_lexeme with (g := fun t n => _); [first [eassumption|match goal with K : ps_tok ?s = ?t |- tk_lexeme (ps_tok ?s) = _ => rewrite K; eassumption end]|]
  | |- ev (fun n => cbind the_int _) _ _ _ => eapply ev_int with (g := fun t n => _)
  end.

Lemma suffix_ev n e s r s' : parse_suffix n e s = COk r s' -> ev (fun n => parse_suffix n e) s r s'.
Proof. intros E. apply (ev_some (fun n => parse_suffix n e) n); auto. intros m L. apply (gn_suffix _ _ (exprs_grow _ _ L)). Qed.
Lemma dots_then_suffix : forall n e s r s2, parse_suffix n e s = COk r s2 -> exists e1 s1,
  ev (fun n => parse_dots n e) s e1 s1 /\ ev (fun n => parse_suffix n e1) s1 r s2.
Proof.
  induction n as [|n IH]; intros e s r s2 E; [discriminate|]. pose proof (suffix_ev _ _ _ _ _ E) as E'.
  destruct (tok_eqb (tk (ps_tok s)) DOT) eqn:D.
  - cbn [parse_suffix] in E. unfold cbind at 1, last_tok in E. pose proof D as D'. apply tok_eqb_eq in D'. rewrite D' in E.
    unfold get_expect, expect, last_tok, cbind in E. destruct (next_token s) as [[] s1| | | | |] eqn:N1; try discriminate E.
    unfold cbind in E. destruct (tok_eqb (tk (ps_tok s1)) IDENT) eqn:Ki; [|discriminate E]. cbn [cret] in E.
    destruct (lexeme s1) as [x s1'| | | | |] eqn:Lx; try discriminate E. unfold lexeme in Lx. destruct (tk_lexeme (ps_tok s1)) eqn:Lx'; [|discriminate Lx].
    injection Lx as <- <-. destruct (next_token s1) as [[] s3| | | | |] eqn:N3; try discriminate E.
    destruct (IH _ _ _ _ E) as (e1 & s4 & E1 & E2). exists e1, s4. split; [|exact E2]. apply ev_S. cbn [parse_dots]. ev1. rewrite D.
    apply tok_eqb_eq in Ki. ev1. ev1. ev1. exact E1.
  - exists e, s. split; [|exact E']. apply ev_S. cbn [parse_dots]. ev1. rewrite D. apply ev_ret.
Qed.
Lemma atom7 s e s1 r s2 : ev parse_value s e s1 -> ev (fun n => parse_suffix n e) s1 r s2 -> ev then_suffix s r s2.
Proof. intros A B. unfold then_suffix. eapply ev_bind with (g := fun f n => parse_suffix n f); eauto. Qed.
Ltac stk := apply stops_k; [reflexivity|intros []; try (left; discriminate); right; repeat split; discriminate].
Lemma call_of T a es T' s s1 o c : good_args T a es T' -> eats s (o :: a ++ [c]) s1 -> tk o = OPENPAREN -> tk c = CLOSEPAREN ->
  ps_tbl s = T -> ps_tbl s1 = T' -> ev parse_call s es s1.
Proof.
  intros G E Ko Kc E0 E1. one E. apply (eats_mid _ _ _ _ T') in E as (s2 & Ea & E & Et). one E.
  apply eats_end in E; [|congruence]. subst s3. apply ev_S. cbn [parse_call]. ev1. rewrite K, Ko. change (tok_eqb OPENPAREN OPENPAREN) with true. cbv iota.
  ev1. eapply ev_bind with (g := fun es n => cbind next_token (fun _ => cret es)).
  - apply (G s0 s2 Ea); congruence.
  - ev1. apply ev_ret.
Qed.

Lemma name_of f ns s s1 : spells_name f ns -> eats s f s1 -> ps_tbl s = ps_tbl s1 -> starts_value (tk (ps_tok s1)) = true ->
  tok_eqb (tk (ps_tok s)) CLOSECURLY = false /\
  (if tok_eqb (tk (ps_tok s)) DOT then get_expect IDENT ;;; x <- lexeme ;; get_expect EQUAL ;;; next_token ;;; cret [x] else cret [])%cm s = COk ns s1.
Proof.
  intros Nm E T V. inversion Nm as [|d t x q Kd Kt Lt Kq]; subst.
  - apply eats_end in E; auto. subst s1. split.
    + destruct (tok_eqb (tk (ps_tok s)) CLOSECURLY) eqn:D; auto. apply tok_eqb_eq in D. rewrite D in V. discriminate V.
    + destruct (tok_eqb (tk (ps_tok s)) DOT) eqn:D; auto. apply tok_eqb_eq in D. rewrite D in V. discriminate V.
  - one E. one E. one E. apply eats_end in E; [|congruence]. subst s3. rewrite K, Kd. split; [reflexivity|].
    change (tok_eqb DOT DOT) with true. cbv iota. unfold get_expect, expect, cbind, last_tok, cret. rewrite N, K0, Kt. change (tok_eqb IDENT IDENT) with true. cbv beta iota.
    unfold lexeme. rewrite K0, Lt, N0, K1, Kq. change (tok_eqb EQUAL EQUAL) with true. cbv beta iota. rewrite N1. reflexivity.
Qed.

Theorem complete :
  (forall p T a e T', spells p T a e T' -> good_at p T a e T') /\
  (forall T a es T', spells_args T a es T' -> good_args T a es T') /\
  (forall T a ns es T', spells_inits T a ns es T' -> good_inits T a ns es T').
Proof.
  apply spells_ind3.
  - (* bin *) intros T a l T1 o t b r T2 Op _ Gl Kt _ Gr s s3 E E0 E3. pose proof (strength_range o) as Ro.
    destruct (Nat.leb_spec (strength o) 5); [|lia]. intros q res s4 Lq [C1 C2] W R.
    apply (eats_mid _ _ _ _ T1) in E as (s1 & Ea & E & Et). one E.
    destruct (prec_bop o) as [P1 P2].
    specialize (Gl s s1 Ea E0 Et). unfold good_at in Gl. destruct (Nat.leb_spec (strength o) 5); [|lia].
    apply (Gl q res s4 Lq); [| |].
    + rewrite K, Kt. split; [intros [D|[D|D]]; destruct o; discriminate D|intros _; destruct o; discriminate].
    + unfold weaker. rewrite K, Kt, P1. auto.
    + apply ev_S. cbn [parse_rhs]. ev1. rewrite K, Kt, P1, P2. destruct (Nat.ltb_spec (strength o) q); [lia|]. ev1.
      assert (Wr : forall p, prec_of (tk (ps_tok s3)) = Some p -> p <= strength o /\ ends_open r = false).
      { intros p Ep. unfold weaker in W. rewrite Ep in W. exact W. }
      specialize (Gr s0 s3 E ltac:(congruence) E3).
      assert (Fr : ev (then_rhs (S (strength o))) s0 r s3).
      { destruct (Nat.leb_spec (S (strength o)) 5) as [L5|L5].
        - apply Gr; auto; [split; auto| |].
          + unfold weaker. destruct (prec_of (tk (ps_tok s3))) eqn:Ep; auto. destruct (Wr _ eq_refl). split; [lia|auto].
          + apply rhs_stop. intros p Ep. destruct (Wr p Ep). lia.
        - destruct (Nat.eqb_spec (S (strength o)) 6) as [E6|]; [|lia]. unfold then_rhs.
          eapply ev_bind with (g := fun f n => parse_rhs n _ f); [apply Gr; [split; auto|]|].
          + unfold weaker. destruct (prec_of (tk (ps_tok s3))) eqn:Ep; auto. destruct (Wr _ eq_refl). split; [lia|auto].
          + apply rhs_stop. intros p Ep. destruct (Wr p Ep). lia. }
      destruct Fr as (n0 & Fr). destruct R as (n1 & R). exists (S (Nat.max n0 n1)). intros n Ln. specialize (Fr n ltac:(lia)). specialize (R n ltac:(lia)).
      unfold then_rhs, cbind in *. destruct (parse_factor n s0) as [f0 sf| | | | |]; try discriminate Fr. cbn [last_tok].
      destruct (prec_lt (Some (strength o)) (prec_of (tk (ps_tok sf)))) eqn:Pl.
      * rewrite Fr. exact R.
      * assert (f0 = r /\ sf = s3) as [-> ->]; [|exact R]. destruct n as [|n]; [discriminate Fr|]. cbn [parse_rhs] in Fr. unfold cbind, last_tok in Fr.
        unfold prec_lt in Pl. destruct (prec_of (tk (ps_tok sf))) as [k|] eqn:Ek.
        -- destruct (bop_prec _ _ Ek) as (o' & _ & _ & Eb). rewrite Eb in Fr. apply Nat.ltb_ge in Pl. destruct (Nat.ltb_spec k (S (strength o))); [|lia].
           injection Fr as -> ->. auto.
        -- injection Fr as -> ->. auto.
  - (* up *) intros p T a e T' Lp _ G s s1 E E0 E1. specialize (G s s1 E E0 E1).
    destruct (Nat.leb_spec p 5).
    + intros q r s2 Lq C W R. destruct (Nat.leb_spec (S p) 5).
      * apply G; auto. unfold weaker in *. destruct (prec_of _); auto. destruct W. split; [lia|auto].
      * destruct (Nat.eqb_spec (S p) 6); [|lia]. unfold then_rhs. eapply ev_bind with (g := fun f n => parse_rhs n q f); [apply G; auto|exact R].
        unfold weaker in *. destruct (prec_of _); auto. destruct W. split; [lia|auto].
    + assert (p = 6) as -> by lia. cbn [Nat.leb Nat.eqb] in *. intros [C1 C2] W. apply ev_factor. apply G; auto. apply suffix_stop; auto.
  - (* minus *) intros T t a e T' Kt _ G s s1 E E0 E1. cbn [Nat.leb Nat.eqb]. intros C W. apply ev_factor. unfold then_suffix. one E.
    eapply ev_bind with (g := fun f n => parse_suffix n f); [|apply suffix_stop; apply C].
    apply ev_S. cbn [parse_value]. ev1. rewrite K, Kt. ev1. eapply ev_bind with (g := fun e n => cret (EUn UMinus e)); [|apply ev_ret].
    apply (G s0 s1 E); auto. congruence.
  - (* bang *) intros T t a e T' Kt _ G s s1 E E0 E1. cbn [Nat.leb Nat.eqb]. intros C W. apply ev_factor. unfold then_suffix. one E.
    eapply ev_bind with (g := fun f n => parse_suffix n f); [|apply suffix_stop; apply C].
    apply ev_S. cbn [parse_value]. ev1. rewrite K, Kt. ev1. eapply ev_bind with (g := fun e n => cret (EUn UNot e)); [|apply ev_ret].
    apply (G s0 s1 E); auto. congruence.
  - (* if *) intros T i c e1 T1 x a e2 T2 el b e3 T3 Ki Ke _ Gc Sx _ Ga _ Gb s s4 E E0 E4. cbn [Nat.leb Nat.eqb]. intros C W.
    apply ev_factor. unfold then_suffix. one E. eapply ev_bind with (g := fun f n => parse_suffix n f); [|apply suffix_stop; apply C].
    apply (eats_mid _ _ _ _ T1) in E as (s1 & Ec & E & Et1). change (x :: a ++ el :: b) with ((x :: a) ++ el :: b) in E.
    apply (eats_mid _ _ _ _ T2) in E as (s2 & Ea & E & Et2). one E.
    apply ev_S. cbn [parse_value]. ev1. rewrite K, Ki. ev1.
    eapply ev_bind with (g := fun c n => cbind (parse_expr n) (fun a => cbind (expect ELSE) (fun _ => cbind next_token (fun _ => cbind (parse_expr n) (fun b => cret (ETern c a b)))))).
    { eapply expr_of; [exact Gc|exact Ec|congruence|exact Et1|]. rewrite (eats_hd _ _ _ _ Ea). exact Sx. }
    eapply ev_bind with (g := fun a n => cbind (expect ELSE) (fun _ => cbind next_token (fun _ => cbind (parse_expr n) (fun b => cret (ETern e1 a b))))).
    { eapply expr_of; [exact Ga|exact Ea|exact Et1|exact Et2|]. rewrite K0, Ke. apply stops_k; [reflexivity|]. intros []; try (left; discriminate). right. repeat split; discriminate. }
    ev1. ev1. eapply ev_bind with (g := fun b n => cret (ETern e1 e2 b)); [|apply ev_ret].
    eapply expr_of; [exact Gb|exact E|congruence|exact E4|]. split; [apply C|]. split; [|apply C].
    apply no_prec. unfold weaker in W. destruct (prec_of (tk (ps_tok s4))); auto. destruct W. discriminate.
  - (* null *) intros T t Kt s s1 E E0 E1 _ r s2 R. one E. apply eats_end in E; [|congruence]. subst s0. eapply atom7; [|exact R].
    apply ev_S. cbn [parse_value]. ev1. rewrite K, Kt. ev1. apply ev_ret.
  - (* bool *) intros T t Kt s s1 E E0 E1 _ r s2 R. one E. apply eats_end in E; [|congruence]. subst s0. eapply atom7; [|exact R].
    apply ev_S. cbn [parse_value]. ev1. rewrite K, Kt. apply ev_const. unfold cbind. rewrite N, K. reflexivity.
  - (* char *) intros T t Kt s s1 E E0 E1 _ r s2 R. one E. apply eats_end in E; [|congruence]. subst s0. eapply atom7; [|exact R].
    apply ev_S. cbn [parse_value]. ev1. rewrite K, Kt. ev1. rewrite K. ev1. apply ev_ret.
  - (* int *) intros T t Kt s s1 E E0 E1 _ r s2 R. one E. apply eats_end in E; [|congruence]. subst s0. eapply atom7; [|exact R].
    apply ev_S. cbn [parse_value]. ev1. rewrite K, Kt. ev1. rewrite K. ev1. apply ev_ret.
  - (* float *) intros T t Kt s s1 E E0 E1 _ r s2 R. one E. apply eats_end in E; [|congruence]. subst s0. eapply atom7; [|exact R].
    apply ev_S. cbn [parse_value]. ev1. rewrite K, Kt. apply ev_const. unfold cbind. rewrite N, K. reflexivity.
  - (* str *) intros T t x i T' Kt Lt In s s1 E E0 E1 _ r s2 R. one E. eapply atom7; [|exact R].
    apply ev_S. cbn [parse_value]. ev1. rewrite K, Kt. ev1. eapply ev_tbl with (g := fun i n => cbind next_token (fun _ => cret (EStr i))); [rewrite E0; exact In|].
    apply next_retbl with (t := T') in N. ev1. apply (eats_left _ _ _) with (t := T') in E. apply eats_end in E; [|cbn; congruence]. subst s1. apply ev_ret.
  - (* id *) intros T t x v T' Kt Lt Rf s s1 E E0 E1 Nc r s2 R. one E. eapply atom7; [|exact R].
    apply ev_S. cbn [parse_value]. ev1. rewrite K, Kt. ev1. ev1. ev1. pose proof (eats_none _ _ E) as E2.
    assert (tk (ps_tok s0) <> OPENPAREN). { rewrite E2 in Nc. apply Nc. reflexivity. }
    destruct (tok_eqb (tk (ps_tok s0)) OPENPAREN) eqn:D; [apply tok_eqb_eq in D; contradiction|].
    eapply ev_tbl with (g := fun r n => cret (EId x r)); [rewrite T0, E0; exact Rf|]. rewrite <- E1, <- E2. apply ev_ret.
  - (* call *) intros T t x o a es c T' Kt Lt Ko Kc _ Ga s s1 E E0 E1 _ r s2 R. one E. eapply atom7; [|exact R].
    apply ev_S. cbn [parse_value]. ev1. rewrite K, Kt. ev1. ev1. ev1. rewrite (eats_hd _ _ _ _ E), Ko. change (tok_eqb OPENPAREN OPENPAREN) with true. cbv iota.
    eapply ev_bind with (g := fun es n => cret (ECall x es)); [|apply ev_ret]. eapply call_of; [exact Ga|exact E|..]; congruence.
  - (* paren *) intros T o a e c T' Ko Kc _ G s s1 E E0 E1 _ r s2 R. one E. apply (eats_mid _ _ _ _ T') in E as (s3 & Ea & E & Et). one E.
    apply eats_end in E; [|congruence]. subst s4. eapply atom7; [|exact R]. apply ev_S. cbn [parse_value]. ev1. rewrite K, Ko. ev1.
    eapply ev_bind with (g := fun e n => cbind (expect CLOSEPAREN) (fun _ => cbind next_token (fun _ => cret (EParen e)))).
    + eapply expr_of; [exact G|exact Ea|congruence|exact Et|]. rewrite K0, Kc. stk.
    + ev1. ev1. apply ev_ret.
  - (* new *) intros T n t x id T1 o a ns es c T' Kn Lt Ds Ko Kc _ G s s1 E E0 E1 _ r s2 R. one E. one E. one E.
    apply (eats_left _ _ _) with (t := T1) in E. apply (eats_mid _ _ _ _ T') in E as (s5 & Ea & E & Et). one E. apply eats_end in E; [|congruence]. subst s6.
    eapply atom7; [|exact R]. apply ev_S. cbn [parse_value]. ev1. rewrite K, Kn. ev1. ev1.
    eapply ev_tbl with (g := fun id n => _); [rewrite T0, E0; exact Ds|].
    apply next_retbl with (t := T1) in N0. apply next_retbl with (t := T1) in N1. eapply ev_get; [exact N0|cbn; congruence|]. ev1.
    eapply ev_bind with (g := fun p n => match p with (ns, es) => cbind next_token (fun _ => cret (ENew id ns es)) end).
    + apply (G _ _ Ea); [reflexivity|exact Et|congruence].
    + cbv beta iota. ev1. apply ev_ret.
  - (* cast *) intros T k o a e T1 m b g c T' Kk Ko Km Kc _ G Ty s s1 E E0 E1 _ r s2 R. destruct R as (n0 & R). specialize (R n0 (le_n _)).
    destruct (dots_then_suffix _ _ _ _ _ R) as (e1 & sd & D1 & D2). eapply atom7; [|exact D2].
    one E. one E. apply (eats_mid _ _ _ _ T1) in E as (s4 & Ea & E & Et). one E. apply (eats_mid _ _ _ _ T') in E as (s6 & Eb & E & Et'). one E.
    apply eats_end in E; [|congruence]. subst s7. apply ev_S. cbn [parse_value]. ev1. rewrite K, Kk. ev1. ev1.
    eapply ev_bind with (g := fun e n => _).
    + eapply expr_of; [exact G|exact Ea|congruence|exact Et|]. rewrite K1, Km. stk.
    + ev1. ev1. eapply ev_type with (g := fun g n => _).
      * eapply type_of; [exact Ty|exact Eb|congruence|exact Et'|]. rewrite K2, Kc. discriminate.
      * ev1. ev1. exact D1.
  - (* index *) intros T a e T1 o b i c T' _ Ge Ko Kc _ Gi s s1 E E0 E1 _ r s2 R. apply (eats_mid _ _ _ _ T1) in E as (s3 & Ea & E & Et). one E.
    apply (eats_mid _ _ _ _ T') in E as (s4 & Eb & E & Et'). one E. apply eats_end in E; [|congruence]. subst s5.
    apply (Ge s s3 Ea E0 Et); [intros _; rewrite K, Ko; discriminate|]. apply ev_S. cbn [parse_suffix]. ev1. rewrite K, Ko. ev1.
    eapply ev_bind with (g := fun i n => _).
    + eapply expr_of; [exact Gi|exact Eb|congruence|exact Et'|]. rewrite K0, Kc. stk.
    + ev1. ev1. exact R.
  - (* dot *) intros T a e T' d t x _ Ge Kd Kt Lt s s1 E E0 E1 _ r s2 R. apply (eats_mid _ _ _ _ T') in E as (s3 & Ea & E & Et). one E. one E.
    apply eats_end in E; [|congruence]. subst s4.
    apply (Ge s s3 Ea E0 Et); [intros _; rewrite K, Kd; discriminate|]. apply ev_S. cbn [parse_suffix]. ev1. rewrite K, Kd. ev1. ev1. ev1. exact R.
  - (* arrow *) intros T a e T1 d t x o b es c T' _ Ge Kd Kt Lt Ko Kc _ Ga s s1 E E0 E1 _ r s2 R. apply (eats_mid _ _ _ _ T1) in E as (s3 & Ea & E & Et). one E. one E.
    apply (Ge s s3 Ea E0 Et); [intros _; rewrite K, Kd; discriminate|]. apply ev_S. cbn [parse_suffix]. ev1. rewrite K, Kd. ev1. ev1.
    pose proof (eats_hd _ _ _ _ E). ev1. eapply ev_bind with (g := fun es n => parse_suffix n (ECall x (e :: es))); [|exact R].
    eapply call_of; [exact Ga|exact E|..]; congruence.
  - (* args *) intros T s s1 E E0 E1 K. apply eats_end in E; [|congruence]. subst s1. apply ev_S. cbn [parse_args]. ev1. rewrite K.
    change (tok_eqb CLOSEPAREN CLOSEPAREN) with true. cbv iota. apply ev_ret.
  - intros T a e T' Sp G s s1 E E0 E1 K. destruct (spells_first _ _ _ _ _ Sp) as (x & a' & -> & V). apply ev_S. cbn [parse_args]. ev1.
    rewrite (eats_hd _ _ _ _ E). destruct (tok_eqb (tk x) CLOSEPAREN) eqn:D; [apply tok_eqb_eq in D; rewrite D in V; discriminate V|].
    eapply ev_bind with (g := fun e n => _); [eapply expr_of; [exact G|exact E|exact E0|exact E1|rewrite K; stk]|].
    ev1. rewrite K. change (tok_eqb CLOSEPAREN COMMA) with false. change (tok_eqb CLOSEPAREN CLOSEPAREN) with true. cbv iota.
    eapply ev_bind with (f := fun _ => cret tt) (g := fun _ n => _); [apply ev_ret|].
    eapply ev_bind with (g := fun es n => cret (e :: es)); [|apply ev_ret]. apply ev_S. cbn [parse_args]. ev1. rewrite K.
    change (tok_eqb CLOSEPAREN CLOSEPAREN) with true. cbv iota. apply ev_ret.
  - intros T a e T1 c b es T' Sp G Kc _ Ga s s1 E E0 E1 K. apply (eats_mid _ _ _ _ T1) in E as (s2 & Ea & E & Et). one E.
    destruct (spells_first _ _ _ _ _ Sp) as (x & a' & -> & V). apply ev_S. cbn [parse_args]. ev1.
    rewrite (eats_hd _ _ _ _ Ea). destruct (tok_eqb (tk x) CLOSEPAREN) eqn:D; [apply tok_eqb_eq in D; rewrite D in V; discriminate V|].
    eapply ev_bind with (g := fun e n => _); [eapply expr_of; [exact G|exact Ea|exact E0|exact Et|rewrite K0, Kc; stk]|].
    ev1. rewrite K0, Kc. change (tok_eqb COMMA COMMA) with true. cbv iota. ev1.
    eapply ev_bind with (g := fun es n => cret (e :: es)); [|apply ev_ret]. apply Ga with (s := s0); auto. congruence.
  - (* inits *) intros T s s1 E E0 E1 K. apply eats_end in E; [|congruence]. subst s1. apply ev_S. cbn [parse_new]. ev1. rewrite K.
    change (tok_eqb CLOSECURLY CLOSECURLY) with true. cbv iota. apply ev_ret.
  - intros T f ns a e T' Nm Sp G s s1 E E0 E1 K. apply (eats_mid _ _ _ _ T) in E as (s2 & Ef & E & Et).
    destruct (spells_first _ _ _ _ _ Sp) as (x & a' & -> & V). apply ev_S. cbn [parse_new]. ev1.
    destruct (name_of _ _ _ _ Nm Ef (eq_trans E0 (eq_sym Et))) as (Nc & Hn). { rewrite (eats_hd _ _ _ _ E). exact V. } rewrite Nc.
    eapply ev_bind with (g := fun nm n => _); [apply ev_const; exact Hn|].
    eapply ev_bind with (g := fun e n => _); [eapply expr_of; [exact G|exact E|exact Et|exact E1|rewrite K; stk]|].
    ev1. rewrite K. change (tok_eqb CLOSECURLY CLOSECURLY) with true. cbv iota.
    eapply ev_bind with (f := fun _ => cret tt) (g := fun _ n => _); [apply ev_ret|].
    eapply ev_bind with (a := ([], [])) (g := fun p n => match p with (ns', es) => cret (ns ++ ns', e :: es) end); [|rewrite app_nil_r; apply ev_ret].
    apply ev_S. cbn [parse_new]. ev1. rewrite K. change (tok_eqb CLOSECURLY CLOSECURLY) with true. cbv iota. apply ev_ret.
  - intros T f ns a e T1 c b ns' es T' Nm Sp G Kc _ Gi s s1 E E0 E1 K. apply (eats_mid _ _ _ _ T) in E as (s2 & Ef & E & Et).
    apply (eats_mid _ _ _ _ T1) in E as (s3 & Ea & E & Et1). one E.
    destruct (spells_first _ _ _ _ _ Sp) as (x & a' & -> & V). apply ev_S. cbn [parse_new]. ev1.
    destruct (name_of _ _ _ _ Nm Ef (eq_trans E0 (eq_sym Et))) as (Nc & Hn). { rewrite (eats_hd _ _ _ _ Ea). exact V. } rewrite Nc.
    eapply ev_bind with (g := fun nm n => _); [apply ev_const; exact Hn|].
    eapply ev_bind with (g := fun e n => _); [eapply expr_of; [exact G|exact Ea|exact Et|exact Et1|rewrite K0, Kc; stk]|].
    ev1. rewrite K0, Kc. change (tok_eqb COMMA CLOSECURLY) with false. change (tok_eqb COMMA COMMA) with true. cbv iota. ev1.
    eapply ev_bind with (a := (ns', es)) (g := fun p n => match p with (ns', es) => cret (ns ++ ns', e :: es) end); [|apply ev_ret].
    apply (Gi _ _ E); congruence.
Qed.

