(** * The parser leaves only the variables of [:=] without a type *)
From Verif Require Import Base Token Lexer Values Strings Syntax Symbols Code Parser Compile Layout CompileProofs TableInv ParserInv Host HostInv TagTable.
Local Open Scope nat_scope.

(** The variables a statement declares with [:=] *)
Fixpoint targets (s : stmt) : list vref :=
  match s with
  | SAsg _ op (EId _ (Some r)) _ => if tok_eqb op DECLARE then [r] else []
  | SBlock _ ss => flat_map targets ss
  | SProc _ _ body => targets body
  | SIf _ _ a None => targets a
  | SIf _ _ a (Some b) => targets a ++ targets b
  | SWhile _ _ b => targets b
  | SFor _ i _ st b => targets i ++ targets st ++ targets b
  | _ => []
  end.

Lemma vref_eq_dec (r r' : vref) : {r = r'} + {r <> r'}.
Proof. decide equality; apply Nat.eq_dec. Defined.

Definition tma {A} (acc : list vref) (m : pm A) (T : A -> list vref) : Prop :=
  forall s a s', m s = COk a s' -> tidy (ps_tbl s) -> tidy (ps_tbl s') /\ exists L, T a = acc ++ L /\ tstep (ps_tbl s) (ps_tbl s') L.
Definition qt {A} (m : pm A) : Prop := tma [] m (fun _ => []).

Lemma tma_bind {A B} acc T1 T (m : pm A) (f : A -> pm B) : tma [] m T1 -> (forall a, tma (acc ++ T1 a) (f a) T) -> tma acc (cbind m f) T.
Proof.
  intros M F s b s' E H. inv_bind E. destruct (M _ _ _ E0 H) as (H1 & L1 & X1 & S1). destruct (F _ _ _ _ E H1) as (H2 & L2 & X2 & S2).
  split; auto. exists (L1 ++ L2). cbn in X1. subst L1. split; [rewrite X2, app_assoc; auto|]. eapply tstep_trans; eauto.
Qed.
Lemma tma_q {A B} acc T (m : pm A) (f : A -> pm B) : qt m -> (forall a, tma acc (f a) T) -> tma acc (cbind m f) T.
Proof. intros M F. eapply tma_bind; [exact M|]. intros a. rewrite app_nil_r. apply F. Qed.
Lemma tma_ret {A} acc (T : A -> list vref) a : T a = acc -> tma acc (cret a) T.
Proof. intros X s b s' E H. apply cret_ok in E as (-> & ->). split; auto. exists []. rewrite app_nil_r. split; auto. apply tstep_refl. Qed.
Lemma tma_fail {A} acc (T : A -> list vref) : tma acc cfail T. Proof. intros s a s' E. discriminate. Qed.
Lemma tma_ub {A} acc (T : A -> list vref) : tma acc cub T. Proof. intros s a s' E. discriminate. Qed.
Lemma tma_abort {A} acc (T : A -> list vref) : tma acc cabort T. Proof. intros s a s' E. discriminate. Qed.
Lemma tma_fuel {A} acc (T : A -> list vref) : tma acc (fun _ => CFuel) T. Proof. intros s a s' E. discriminate. Qed.
Lemma tma_if {A} acc (T : A -> list vref) (b : bool) m m' : tma acc m T -> tma acc m' T -> tma acc (if b then m else m') T.
Proof. destruct b; auto. Qed.
Lemma qt_tbl {A} (m : tbl -> cres tbl A) : tok m -> qt (on_tbl m).
Proof.
  intros M s a s' E H. unfold on_tbl in E. destruct (m (ps_tbl s)) eqn:Em; try discriminate. injection E as <- <-.
  destruct (M _ _ _ Em H) as (X & Y). split; auto. exists []. auto.
Qed.
Lemma qt_still {A} (m : pm A) : (forall s a s', m s = COk a s' -> ps_tbl s' = ps_tbl s) -> qt m.
Proof. intros M s a s' E H. rewrite (M _ _ _ E). split; auto. exists []. split; auto. apply tstep_refl. Qed.
Lemma qt_next : qt next_token.
Proof.
  apply qt_still. intros s a s' E. unfold next_token in E. destruct (ps_toks s) as [|t ts].
  - destruct (ps_end s); try discriminate. injection E as _ <-. auto.
  - injection E as _ <-. auto.
Qed.
Lemma qt_last : qt last_tok. Proof. apply qt_still. intros s a s' [= _ <-]. auto. Qed.
Lemma qt_line : qt the_line. Proof. apply qt_still. intros s a s' [= _ <-]. auto. Qed.
Lemma qt_int : qt the_int. Proof. apply qt_still. intros s a s' [= _ <-]. auto. Qed.
Lemma qt_the_tbl : qt the_tbl. Proof. apply qt_still. intros s a s' [= _ <-]. auto. Qed.
Lemma qt_lexeme : qt lexeme.
Proof. apply qt_still. intros s a s' E. unfold lexeme in E. destruct (tk_lexeme _); try discriminate. injection E as _ <-. auto. Qed.
Lemma qt_expect k : qt (expect k).
Proof. unfold expect. eapply tma_q; [apply qt_last|]. intros t. apply tma_if; [apply tma_ret; auto|apply tma_fail]. Qed.
Lemma qt_get_expect k : qt (get_expect k).
Proof. unfold get_expect. eapply tma_q; [apply qt_next|]. intros _. apply qt_expect. Qed.
Lemma tma_reader {A B} acc (T : A -> list vref) (g : pst -> B) (f : B -> pm A) : (forall b, tma acc (f b) T) -> tma acc (fun s => f (g s) s) T.
Proof. intros F s a s' E. exact (F _ _ _ _ E). Qed.
Lemma qt_mod f : (forall t, tb_syms (f t) = tb_syms t /\ tb_next (f t) = tb_next t) -> qt (mod_tbl f).
Proof. intros F. apply qt_tbl, tok_same. intros t a t' [= _ <-]. apply F. Qed.

Ltac ts :=
  match goal with
  | |- tma _ (cbind next_token _) _ => eapply tma_q; [apply qt_next|intros _]
  | |- tma _ (cbind last_tok _) _ => eapply tma_q; [apply qt_last|intros ?]
  | |- tma _ (cbind the_line _) _ => eapply tma_q; [apply qt_line|intros ?]
  | |- tma _ (cbind the_int _) _ => eapply tma_q; [apply qt_int|intros ?]
  | |- tma _ (cbind lexeme _) _ => eapply tma_q; [apply qt_lexeme|intros ?]
  | |- tma _ (cbind (expect _) _) _ => eapply tma_q; [apply qt_expect|intros _]
  | |- tma _ (cbind (get_expect _) _) _ => eapply tma_q; [apply qt_get_expect|intros _]
  | |- tma _ (cbind the_tbl _) _ => eapply tma_q; [apply qt_the_tbl|intros ?]
  | |- tma _ (cbind (mod_tbl _) _) _ => eapply tma_q; [apply qt_mod; intros; split; reflexivity|intros _]
  | |- tma _ (cbind (on_tbl close_scope) _) _ => eapply tma_q; [apply qt_tbl, tok_close|intros _]
  | |- tma _ (cret _) _ => apply tma_ret
  | |- tma _ cfail _ => apply tma_fail
  | |- tma _ cub _ => apply tma_ub
  | |- tma _ cabort _ => apply tma_abort
  | |- tma _ (fun _ => CFuel) _ => apply tma_fuel
  | |- tma _ (if _ then _ else _) _ => apply tma_if
  | |- qt ?m => change (tma [] m (fun _ => []))
  end.
Ltac tss := repeat ts.

Lemma qt_type : qt parse_type.
Proof.
  unfold parse_type. tss. eapply tma_q; [apply qt_tbl, tok_tag_from_name|]. intros g. tss; auto.
  destruct (tag_eq_dec g GVoid); tss. eapply tma_q; [apply qt_tbl, tok_get_nullable|]. intros g'. tss. auto.
Qed.

Definition qt_exprs (n : nat) : Prop :=
  qt (parse_expr n) /\ qt (parse_factor n) /\ (forall p e, qt (parse_rhs n p e)) /\ (forall e, qt (parse_suffix n e)) /\
  qt (parse_value n) /\ (forall e, qt (parse_dots n e)) /\ qt (parse_call n) /\ qt (parse_args n) /\ qt (parse_new n).
Lemma qt_exprs_ok : forall n, qt_exprs n.
Proof.
  induction n as [|n (He & Hf & Hr & Hs & Hv & Hd & Hc & Ha & Hn)].
  { unfold qt_exprs; repeat split; intros; try discriminate. all: cbn in *; discriminate. }
  unfold qt_exprs. split; [|split; [|split; [|split; [|split; [|split; [|split; [|split]]]]]]].
  - cbn [parse_expr]. eapply tma_q; [exact Hf|]. intros. apply Hr; auto.
  - cbn [parse_factor]. eapply tma_q; [exact Hv|]. intros. apply Hs; auto.
  - intros p e. cbn [parse_rhs]. tss. destruct (prec_of a) as [q|]; [|tss; auto].
    destruct (bop_of a) as [o|]; tss; auto.
    eapply tma_q; [exact Hf|]. intros r. tss. eapply tma_q.
    { apply tma_if; [apply Hr; auto|apply tma_ret; auto]. }
    intros r'. apply Hr.
  - intros e. cbn [parse_suffix]. tss. destruct a; tss; auto.
    all: try (apply Hs).
    + eapply tma_q; [exact He|]. intros i. tss. apply Hs.
    + eapply tma_q; [exact Hc|]. intros args. apply Hs.
  - cbn [parse_value]. tss. destruct a; tss; auto.
    all: try (eapply tma_q; [first [exact Hf|exact He]|]; intros; tss; auto; fail).
    all: try (apply (tma_reader _ _ (fun s => tk_b (ps_tok s)) (fun b => cbind next_token (fun _ => cret (EBool b)))); intros; tss; auto).
    all: try (apply (tma_reader _ _ (fun s => tk_f (ps_tok s)) (fun b => cbind next_token (fun _ => cret (EFloat b)))); intros; tss; auto).
    + eapply tma_q; [apply qt_tbl, tok_intern|]. intros i. tss. auto.
    + eapply tma_q; [exact Hc|]. intros args. tss. auto.
    + eapply tma_q; [apply qt_tbl, tok_reference|]. intros r. tss. auto.
    + eapply tma_q; [exact He|]. intros c. eapply tma_q; [exact He|]. intros x. tss.
      eapply tma_q; [exact He|]. intros y. tss. auto.
    + eapply tma_q; [apply qt_tbl, tok_declare_struct|].
      intros i. tss. eapply tma_q; [exact Hn|]. intros [names args]. tss. auto.
    + eapply tma_q; [exact He|]. intros e. tss. eapply tma_q; [apply qt_type|]. intros g. tss.
      apply Hd.
  - intros e. cbn [parse_dots]. tss; auto. apply Hd.
  - cbn [parse_call]. tss. eapply tma_q; [exact Ha|]. intros args. tss. auto.
  - cbn [parse_args]. tss; auto. eapply tma_q; [exact He|]. intros e. tss.
    eapply tma_q; [tss; auto; apply qt_next|]. intros _. eapply tma_q; [exact Ha|]. intros es. tss. auto.
  - cbn [parse_new]. tss; auto. eapply tma_q; [tss; auto|]. intros nm.
    eapply tma_q; [exact He|]. intros e. tss. eapply tma_q; [tss; auto; apply qt_next|]. intros _.
    eapply tma_q; [exact Hn|]. intros [ns es]. tss. auto.
Qed.
Lemma qt_expr n : qt (parse_expr n). Proof. apply qt_exprs_ok. Qed.
Lemma qt_factor n : qt (parse_factor n). Proof. apply qt_exprs_ok. Qed.
Lemma qt_params n : qt (parse_params n).
Proof.
  induction n as [|n IH]; [apply tma_fuel|]. cbn [parse_params]. tss; auto.
  eapply tma_q; [apply qt_type|]. intros g. tss. eapply tma_q; [tss; auto; apply qt_next|]. intros _.
  eapply tma_q; [exact IH|]. intros. tss. auto.
Qed.
Lemma qt_declare_params k ps : qt (declare_params k ps).
Proof.
  induction ps as [|[n g] ps IH]; cbn [declare_params]; tss; auto. eapply tma_q; [apply qt_tbl, tok_declare_argument|]. intros _. exact IH.
Qed.
Lemma qt_use_args n : qt (parse_use_args n).
Proof.
  induction n as [|n IH]; [apply tma_fuel|]. cbn [parse_use_args]. tss; auto.
  eapply tma_q; [tss; auto; apply qt_next|]. intros _. eapply tma_q; [exact IH|]. intros. tss. auto.
Qed.
Lemma tm_use n line : tma [] (parse_use n line) targets.
Proof. unfold parse_use. tss. eapply tma_q; [apply qt_use_args|]. intros args. tss; auto. Qed.

(** ** Structures *)
Lemma is_struct_from t t' id nm d fs : kinds t t' -> sym_at t id = Some (mkSym id nm (SyStruct d fs)) -> exists y', sym_at t' id = Some y'.
Proof. intros K E. destruct (K _ _ E) as (y' & Y & _). eauto. Qed.
Lemma field_index_none fs name : field_index fs name = None -> ~ In name (map fd_name fs).
Proof.
  unfold field_index. intros E I. apply in_map_iff in I as (f & <- & I).
  assert (X : forall k, find_index (fun f0 => text_eqb (fd_name f0) (fd_name f)) fs k <> None).
  { clear E. induction fs as [|g fs IH]; intros k; [contradiction|]. cbn. destruct I as [->|I].
    - rewrite text_eqb_refl'. discriminate.
    - destruct (text_eqb _ _); [discriminate|]. apply IH; auto. }
  assert (Y : forall l k j, find_index (fun f0 => text_eqb (fd_name f0) (fd_name f)) l k = Some j -> exists q, nth_error l (j - k) = Some q /\ k <= j).
  { clear. induction l as [|g l IH]; intros k j E; cbn in E; [discriminate|]. destruct (text_eqb _ _).
    - injection E as <-. exists g. rewrite Nat.sub_diag. auto.
    - destruct (IH _ _ E) as (q & Q & Le). exists q. split; [|lia]. replace (j - k) with (S (j - S k)) by lia. exact Q. }
  destruct (find_index _ fs 0) as [j|] eqn:F; [|exact (X _ F)]. destruct (Y _ _ _ F) as (q & Q & _). rewrite Nat.sub_0_r in Q. rewrite Q in E. discriminate.
Qed.
(** Parsing a type does not touch the structures there are *)
Definition stay {A} (m : tbl -> cres tbl A) : Prop := forall t a t', m t = COk a t' -> tidy t -> forall id y, sym_at t id = Some y -> sym_at t' id = Some y.
Lemma new_stay t t' name b : tidy t -> tb_syms t' = tb_syms t ++ [mkSym (tb_next t) name b] -> forall id y, sym_at t id = Some y -> sym_at t' id = Some y.
Proof.
  intros T E id y Y. rewrite (new_at _ _ _ _ _ T E). destruct (Nat.eqb_spec id (tb_next t)) as [->|]; auto.
  apply sym_at_in in Y as (I & Y). pose proof (proj1 (Forall_forall _ _) (td_next _ T) _ I) as L. cbn in L. lia.
Qed.
Lemma type_stay s g s' : parse_type s = COk g s' -> tidy (ps_tbl s) -> forall id y, sym_at (ps_tbl s) id = Some y -> sym_at (ps_tbl s') id = Some y.
Proof.
  intros E H id y Y. unfold parse_type in E.
  apply cbind_ok in E as (u1 & s1 & E1 & E). apply cbind_ok in E1 as (k & s1' & E1' & E1). injection E1' as _ <-.
  destruct (tok_eqb k IDENT); [|discriminate]. apply cret_ok in E1 as (_ & ->).
  apply cbind_ok in E as (nm & s2 & E2 & E). unfold lexeme in E2. destruct (tk_lexeme _); try discriminate. injection E2 as <- <-.
  apply cbind_ok in E as (g1 & s3 & E3 & E).
  assert (H3 : tidy (ps_tbl s3)) by (eapply (qt_tbl _ (tok_tag_from_name t)); eauto).
  assert (Y3 : sym_at (ps_tbl s3) id = Some y).
  { unfold on_tbl in E3. destruct (tag_from_name t (ps_tbl s)) as [g0 t0| | | | |] eqn:Et; try discriminate. injection E3 as <- <-. cbn [ps_tbl].
    unfold tag_from_name in Et. destruct (prim_tag t); [injection Et as _ <-; auto|]. destruct (find _ _); [injection Et as _ <-; auto|].
    cbn in Et. injection Et as _ <-. eapply new_stay; [exact H| |exact Y]. reflexivity. }
  apply cbind_ok in E as (u4 & s4 & E4 & E).
  assert (T4 : ps_tbl s4 = ps_tbl s3).
  { unfold next_token in E4. destruct (ps_toks s3); [destruct (ps_end s3); try discriminate|]; injection E4 as _ <-; auto. }
  apply cbind_ok in E as (k2 & s5 & E5 & E). injection E5 as _ <-.
  destruct (tok_eqb k2 QUESTION); [|apply cret_ok in E as (_ & ->); rewrite T4; auto].
  destruct (tag_eq_dec g1 GVoid); try discriminate. apply cbind_ok in E as (g2 & s6 & E6 & E). apply cbind_ok in E as (u7 & s7 & E7 & E).
  apply cret_ok in E as (_ & ->).
  assert (T7 : ps_tbl s7 = ps_tbl s6).
  { unfold next_token in E7. destruct (ps_toks s6); [destruct (ps_end s6); try discriminate|]; injection E7 as _ <-; auto. }
  rewrite T7. unfold on_tbl in E6. destruct (get_nullable g1 (ps_tbl s4)) as [g0 t0| | | | |] eqn:Et; try discriminate. injection E6 as <- <-. cbn [ps_tbl].
  unfold get_nullable in Et. rewrite T4 in Et. destruct (find _ _); [injection Et as _ <-; auto|]. destruct (tag_name _ _); try discriminate.
  injection Et as _ <-. eapply new_stay; [exact H3| |exact Y3]. reflexivity.
Qed.

Lemma next_tbl s u s' : next_token s = COk u s' -> ps_tbl s' = ps_tbl s.
Proof. intros E. unfold next_token in E. destruct (ps_toks s); [destruct (ps_end s); try discriminate|]; injection E as _ <-; auto. Qed.
Lemma expect_tbl k s u s' : expect k s = COk u s' -> s' = s.
Proof.
  intros E. unfold expect in E. apply cbind_ok in E as (x & s1 & E1 & E). injection E1 as _ <-. destruct (tok_eqb x k); try discriminate.
  apply cret_ok in E as (_ & ->). auto.
Qed.
Lemma get_expect_tbl k s u s' : get_expect k s = COk u s' -> ps_tbl s' = ps_tbl s.
Proof. intros E. apply cbind_ok in E as (x & s1 & E1 & E). apply expect_tbl in E. subst. eapply next_tbl; eauto. Qed.
Lemma lexeme_tbl s x s' : lexeme s = COk x s' -> s' = s.
Proof. intros E. unfold lexeme in E. destruct (tk_lexeme _); try discriminate. injection E as _ <-. auto. Qed.
Lemma the_tbl_ok s x s' : the_tbl s = COk x s' -> s' = s /\ x = ps_tbl s.
Proof. intros [= <- <-]. destruct s; auto. Qed.
Lemma on_tbl_ok {A} (m : tbl -> cres tbl A) s a s' : on_tbl m s = COk a s' -> m (ps_tbl s) = COk a (ps_tbl s').
Proof. unfold on_tbl. destruct (m (ps_tbl s)); try discriminate. intros [= <- <-]. reflexivity. Qed.

Lemma qt_fields n id : qt (parse_fields n id).
Proof.
  induction n as [|n IH]; [apply tma_fuel|]. cbn [parse_fields]. eapply tma_q; [apply qt_last|]. intros k. apply tma_if; [tss; auto|].
  intros s a s' E H.
  apply cbind_ok in E as (u1 & s1 & E1 & E). apply expect_tbl in E1. subst s1.
  apply cbind_ok in E as (nm & s1 & E1 & E). apply lexeme_tbl in E1. subst s1.
  apply cbind_ok in E as (tb & s1 & E1 & E). apply the_tbl_ok in E1 as (-> & ->).
  destruct (sym_at (ps_tbl s) id) as [[yi yn []]|] eqn:Y; try discriminate. destruct (255 <=? _); try discriminate.
  destruct (field_index fields nm) eqn:Fi; try discriminate.
  apply cbind_ok in E as (u2 & s2 & E2 & E). apply get_expect_tbl in E2.
  apply cbind_ok in E as (u3 & s3 & E3 & E). apply next_tbl in E3. rewrite E2 in E3.
  apply cbind_ok in E as (g & s4 & E4 & E).
  assert (H3 : tidy (ps_tbl s3)) by (rewrite E3; exact H).
  destruct (qt_type _ _ _ E4 H3) as (H4 & L4 & X4 & S4). cbn in X4. subst L4.
  assert (Y4 : sym_at (ps_tbl s4) id = Some (mkSym yi yn (SyStruct defined fields))) by (eapply type_stay; [exact E4|exact H3|rewrite E3; exact Y]).
  apply cbind_ok in E as (u5 & s5 & E5 & E). apply on_tbl_ok in E5. rewrite Y4 in E5. injection E5 as _ E5.
  assert (B : tidy (ps_tbl s5) /\ tstep (ps_tbl s4) (ps_tbl s5) []).
  { rewrite <- E5. eapply put_nil; eauto; cbn [sy_body tname]; auto.
    intros d fs [= <- <-]. split; eauto. rewrite map_app. cbn. apply (Permutation.Permutation_NoDup (Permutation.Permutation_cons_append _ _)).
      constructor; [apply field_index_none; auto|]. apply sym_at_in in Y4 as (I4 & _). exact (td_fields _ H4 _ _ _ I4 eq_refl).
 }
  destruct B as (H5 & S5). destruct (IH _ _ _ E H5) as (H6 & L6 & X6 & S6). split; auto. exists []. split; auto. cbn in X6. subst L6.
  pose proof (tstep_trans _ _ _ _ _ S4 (tstep_trans _ _ _ _ _ S5 S6)) as Z. rewrite E3 in Z. exact Z.
Qed.
Lemma qt_struct n : qt (parse_struct n).
Proof.
  intros s a s' E H. unfold parse_struct in E.
  apply cbind_ok in E as (tb & s1 & E1 & E). apply the_tbl_ok in E1 as (-> & ->).
  destruct (tb_func _); try discriminate.
  apply cbind_ok in E as (u2 & s2 & E2 & E). apply get_expect_tbl in E2.
  apply cbind_ok in E as (nm & s3 & E3 & E). apply lexeme_tbl in E3. subst s3.
  apply cbind_ok in E as (id & s3 & E3 & E). assert (H2 : tidy (ps_tbl s2)) by (rewrite E2; exact H).
  destruct (qt_tbl _ (tok_declare_struct nm) _ _ _ E3 H2) as (H3 & L3 & X3 & S3). cbn in X3. subst L3. rewrite E2 in S3.
  apply cbind_ok in E as (tb & s4 & E4 & E). apply the_tbl_ok in E4 as (-> & ->).
  destruct (sym_at (ps_tbl s3) id) as [[yi yn [| | | |[]| | |]]|] eqn:Y; try discriminate.
  apply cbind_ok in E as (u5 & s5 & E5 & E). unfold mod_tbl in E5. apply on_tbl_ok in E5. injection E5 as _ E5.
  assert (B : tidy (ps_tbl s5) /\ tstep (ps_tbl s3) (ps_tbl s5) []).
  { rewrite <- E5. eapply put_nil; eauto; cbn [sy_body tname]; auto.
    intros d fs [= <- <-]. split; eauto. apply sym_at_in in Y as (I4 & _). exact (td_fields _ H3 _ _ _ I4 eq_refl).
 }
  destruct B as (H5 & S5).
  apply cbind_ok in E as (u6 & s6 & E6 & E). apply get_expect_tbl in E6.
  apply cbind_ok in E as (u7 & s7 & E7 & E). apply next_tbl in E7.
  apply cbind_ok in E as (u8 & s8 & E8 & E). assert (H7 : tidy (ps_tbl s7)) by (rewrite E7, E6; exact H5).
  destruct (qt_fields _ _ _ _ _ E8 H7) as (H8 & L8 & X8 & S8). cbn in X8. subst L8. rewrite E7, E6 in S8.
  apply cbind_ok in E as (u9 & s9 & E9 & E). apply next_tbl in E9.
  apply cbind_ok in E as (tb & s10 & E10 & E). apply the_tbl_ok in E10 as (-> & ->).
  assert (s' = s9) as -> by (destruct (sym_at (ps_tbl s9) id) as [[? ? [| | | |? []| | |]]|]; try discriminate; apply cret_ok in E as (_ & ->); auto).
  rewrite E9. split; auto. exists []. split; auto. exact (tstep_trans _ _ _ _ _ S3 (tstep_trans _ _ _ _ _ S5 S8)).
Qed.

(** ** Statements *)
Lemma declare_either (c : option nat) name s r s' : on_tbl (match c with Some _ => declare_local name | None => declare_global name end) s = COk r s' ->
  tidy (ps_tbl s) -> tidy (ps_tbl s') /\ tstep (ps_tbl s) (ps_tbl s') [r].
Proof. intros E H. apply on_tbl_ok in E. destruct c; [eapply declare_local_step|eapply declare_global_step]; eauto. Qed.

Lemma tm_simple n : tma [] (parse_simple n) targets.
Proof.
  unfold parse_simple. eapply tma_q; [apply qt_line|]. intros line0. eapply tma_q; [apply qt_factor|]. intros lhs.
  assert (X : tma [] (cbind last_tok (fun op => cbind the_line (fun line =>
      cbind (if tok_eqb op DECLARE || tok_eqb op COLON then
           match lhs with
           | EId name _ =>
               cbind the_tbl (fun tb =>
               cbind (on_tbl (match tb_func tb with
                            | Some _ => declare_local name
                            | None => declare_global name end)) (fun r =>
               if tok_eqb op COLON then
                 cbind next_token (fun _ =>
                 cbind parse_type (fun g =>
                 cbind (on_tbl (set_var_tag r g)) (fun _ =>
                 cbind (expect EQUAL) (fun _ =>
                 cret (EId name (Some r), EQUAL)))))
               else cret (EId name (Some r), op)))
           | _ => cfail
           end
         else cret (lhs, op)) (fun x => match x with (lhs', op') =>
      match prec_of op' with
      | Some _ => cfail
      | None =>
          cbind next_token (fun _ =>
          cbind (parse_expr n) (fun rhs =>
          cbind (if tok_eqb op' DECLARECONST then
             match lhs' with
             | EId name _ =>
                 match const_of rhs with
                 | Some c => on_tbl (declare_const name c)
                 | None => cfail
                 end
             | _ => cfail
             end
           else cret tt) (fun _ =>
          cret (SAsg line op' lhs' rhs))))
      end end)))) targets).
  2: { destruct lhs; try exact X. tss. auto. }
  eapply tma_q; [apply qt_last|]. intros op. eapply tma_q; [apply qt_line|]. intros line.
  eapply tma_bind with (T1 := fun x => targets (SAsg 0 (snd x) (fst x) ENull)).
  - destruct (tok_eqb op DECLARE || tok_eqb op COLON) eqn:D.
    + destruct lhs; try apply tma_fail. eapply tma_q; [apply qt_the_tbl|]. intros tb.
      intros s a s' E H. apply cbind_ok in E as (v & s1 & E1 & E). destruct (declare_either _ _ _ _ _ E1 H) as (H1 & S1).
      destruct (tok_eqb op COLON) eqn:Co.
      * apply cbind_ok in E as (u2 & s2 & E2 & E). apply next_tbl in E2.
        apply cbind_ok in E as (g & s3 & E3 & E). assert (H2 : tidy (ps_tbl s2)) by (rewrite E2; exact H1).
        destruct (qt_type _ _ _ E3 H2) as (H3 & L3 & X3 & S3). cbn in X3. subst L3. rewrite E2 in S3.
        apply cbind_ok in E as (u4 & s4 & E4 & E). apply on_tbl_ok in E4. destruct (set_tag_step _ _ _ _ _ E4 H3) as (H4 & K4 & V4 & W4).
        apply cbind_ok in E as (u5 & s5 & E5 & E). apply expect_tbl in E5. subst s5. apply cret_ok in E as (-> & ->).
        split; auto. exists []. cbn [fst snd targets]. split; [reflexivity|].
        destruct S1 as (K1 & V1 & _ & F1). inversion F1 as [|? ? (F2 & F3) _]; subst. destruct S3 as (K3 & V3 & _).
        apply tstep_nil; [eapply kinds_trans; [exact K1|]; eapply kinds_trans; eauto|].
        intros q x Q. destruct (vref_eq_dec q v) as [->|N]; [congruence|]. rewrite W4 by auto. apply V3, V1. exact Q.
      * apply cret_ok in E as (-> & ->). split; auto. exists [v]. split; auto. cbn [fst snd targets]. rewrite orb_false_r in D. rewrite D. reflexivity.
    + apply tma_ret. cbn [fst snd targets]. apply orb_false_iff in D as (D & _). destruct lhs; auto. destruct r; auto. rewrite D. reflexivity.
  - intros [lhs' op']. destruct (prec_of op'); tss. eapply tma_q; [apply qt_expr|]. intros rhs.
    eapply tma_q.
    + apply tma_if; [|tss; auto]. destruct lhs'; tss. destruct (const_of rhs); tss. apply qt_tbl, tok_declare_const.
    + intros _. tss. cbn [fst snd targets]. destruct lhs'; auto.
Qed.

Lemma tm_stmt : forall n, tma [] (parse_stmt n) targets /\ tma [] (parse_block n) (flat_map targets).
Proof.
  induction n as [|n (Hs & Hb)]; [split; apply tma_fuel|]. split.
  - cbn [parse_stmt]. eapply tma_q; [apply qt_last|]. intros k.
    destruct k; try apply tm_simple; tss; auto.
    + eapply tma_bind; [exact Hb|]. intros ss. tss. reflexivity.
    + eapply tma_q; [apply qt_expr|]. intros c. eapply tma_bind; [exact Hs|]. intros x. tss; auto.
      eapply tma_bind; [exact Hs|]. intros y. tss. reflexivity.
    + eapply tma_q; [apply qt_expr|]. intros c. tss. eapply tma_bind; [exact Hs|]. intros x. tss. reflexivity.
    + eapply tma_bind; [exact Hs|]. intros x. tss. eapply tma_q; [apply qt_expr|]. intros c. tss.
      eapply tma_bind; [exact Hs|]. intros y. eapply tma_bind; [exact Hs|]. intros z. tss. cbn. rewrite app_assoc. reflexivity.
    + destruct (tb_func a); tss; auto. destruct (sym_at _ _) as [[? ? [| |? ? ? []| | | | |]]|]; tss.
      destruct (tag_eq_dec _ _); tss. eapply tma_q; [apply qt_expr|]. intros c. tss. auto.
    + destruct (tb_func a); tss. eapply tma_q; [apply qt_tbl, tok_declare_function|]. intros f. tss.
      eapply tma_q; [apply qt_params|]. intros ps. eapply tma_q; [apply qt_declare_params|]. intros _. tss.
      eapply tma_q.
      { apply tma_if; tss; [eapply tma_q; [apply qt_type|]; intros g|]; apply qt_tbl, tok_set_ret. }
      intros _. tss. eapply tma_bind; [exact Hs|]. intros body. tss. reflexivity.
    + destruct (tb_func a); tss. apply tm_use.
  - cbn [parse_block]. tss; auto. eapply tma_bind; [exact Hs|]. intros s. eapply tma_bind; [exact Hb|]. intros ss. tss. reflexivity.
Qed.
Lemma tm_top n : tma [] (parse_top n) (flat_map targets).
Proof.
  induction n as [|n IH]; [apply tma_fuel|]. cbn [parse_top]. eapply tma_q; [apply qt_last|]. intros k.
  assert (X : tma [] (cbind (parse_stmt n) (fun s => cbind (parse_top n) (fun ss => cret (s :: ss)))) (flat_map targets)).
  { eapply tma_bind; [apply tm_stmt|]. intros s. eapply tma_bind; [exact IH|]. intros ss. tss. reflexivity. }
  destruct k; try exact X; try (tss; auto; fail). eapply tma_q; [apply qt_struct|]. intros _. exact IH.
Qed.
Theorem program_targets n s ss s' : parse_program n s = COk ss s' -> tidy (ps_tbl s) ->
  tidy (ps_tbl s') /\ tstep (ps_tbl s) (ps_tbl s') (flat_map targets ss).
Proof.
  intros E H. assert (X : tma [] (parse_program n) (flat_map targets)).
  { unfold parse_program. tss. apply tm_top. }
  destruct (X _ _ _ E H) as (A & L & B & C). split; auto. rewrite B. exact C.
Qed.

(** ** The host *)
Lemma qt_sig_args n : qt (sig_args n).
Proof.
  induction n as [|n IH]; [apply tma_fuel|]. cbn [sig_args]. tss. destruct a; tss; auto.
  all: try (eapply tma_q; [apply qt_type|]; intros). all: try (eapply tma_q; [exact IH|]; intros; tss; auto). all: exact IH.
Qed.
Lemma tok_bind_host n sig c : tok (bind_host n sig c).
Proof.
  intros t a t' E H. unfold bind_host in E. destruct (bind_sig n c (start_parse t sig)) as [u0 p| | | | |] eqn:B; try discriminate. injection E as _ <-.
  assert (T : ps_tbl (start_parse t sig) = t) by (unfold start_parse; destruct (lex_all sig); reflexivity).
  assert (X : qt (bind_sig n c)).
  { unfold bind_sig. tss; try (apply qt_tbl, tok_bind_function). eapply tma_q; [apply qt_sig_args|]. intros r. tss.
    eapply tma_q; [tss; auto; apply qt_type|]. intros g. apply qt_tbl, tok_bind_function. }
  rewrite <- T in H. destruct (X _ _ _ B H) as (A & L & Y & C). rewrite T in C. cbn in Y. subst L. auto.
Qed.
Lemma host_step n o s s' : host n o s = COk tt s' -> tidy (k_tbl s) ->
  tidy (k_tbl s') /\ tstep (k_tbl s) (k_tbl s') [] /\ k_hist s' = k_hist s.
Proof.
  intros E H. unfold host, kon_tbl in E.
  match type of E with match ?m (k_tbl s) with _ => _ end = _ => assert (X : tok m) end.
  { destruct o; [apply tok_register_type|apply tok_bind_host| |apply tok_bind_macro].
    destruct c; cbn [bind_const]; try apply tok_declare_const. intros t a t' E' H'. apply cbind_ok in E' as (i & t1 & E1 & E').
    destruct (tok_intern _ _ _ _ E1 H') as (A & B). destruct (tok_declare_const _ _ _ _ _ E' A) as (C & D). split; auto.
    exact (tstep_trans _ _ _ _ _ B D). }
  destruct (_ (k_tbl s)) as [a t| | | | |] eqn:Eo in E; try discriminate. injection E as _ <-. destruct (X _ _ _ Eo H) as (A & B). split; auto.
Qed.
