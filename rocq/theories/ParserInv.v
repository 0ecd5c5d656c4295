(** * What the parser does to the symbol table, and the trees it builds *)
From Coq Require Import Permutation.
From Verif Require Import Base Token Lexer Values Strings Syntax Symbols Code Parser Compile Layout CompileProofs TableInv.
Local Open Scope nat_scope.

(** The variables mentioned *)
Fixpoint urefs (e : expr) : list vref :=
  match e with
  | EId _ (Some r) => [r]
  | ECall _ args | ENew _ _ args => flat_map urefs args
  | EBin _ l r => urefs l ++ urefs r
  | EUn _ e | EParen e | ECast e _ | EDot e _ => urefs e
  | EIndex a i => urefs a ++ urefs i
  | ETern c a b => urefs c ++ urefs a ++ urefs b
  | _ => []
  end.
Fixpoint usrefs (s : stmt) : list vref :=
  match s with
  | SCall _ _ args => flat_map urefs args
  | SAsg _ _ l r => urefs l ++ urefs r
  | SBlock _ ss => flat_map usrefs ss
  | SIf _ c a None => urefs c ++ usrefs a
  | SIf _ c a (Some b) => urefs c ++ usrefs a ++ usrefs b
  | SWhile _ c b => urefs c ++ usrefs b
  | SFor _ i c st b => usrefs i ++ urefs c ++ usrefs st ++ usrefs b
  | SReturn _ (Some e) => urefs e
  | _ => []
  end.
(** The functions defined *)
Fixpoint ubodies (s : stmt) : list (nat * stmt) :=
  match s with
  | SBlock _ ss => flat_map ubodies ss
  | SProc _ f body => (f, body) :: ubodies body
  | SIf _ _ a None => ubodies a
  | SIf _ _ a (Some b) => ubodies a ++ ubodies b
  | SWhile _ _ body => ubodies body
  | SFor _ init _ step body => ubodies init ++ ubodies step ++ ubodies body
  | _ => []
  end.

Definition scoped (cur : option nat) (e : expr) : Prop := Forall (in_scope cur) (urefs e).
Definition scopeds (cur : option nat) (es : list expr) : Prop := Forall (scoped cur) es.

Lemma scopeds_flat cur es : scopeds cur es -> Forall (in_scope cur) (flat_map urefs es).
Proof. induction 1; cbn; [constructor|]. apply Forall_app. auto. Qed.

(** ** Parsing expressions and types is quiet *)
Section Quiet.
Variable cur : option nat.

Definition qm {A} (P : A -> Prop) (m : pm A) : Prop :=
  forall s a s', tb_func (ps_tbl s) = cur -> m s = COk a s' -> quiet (ps_tbl s) (ps_tbl s') /\ P a.

Lemma qm_bind {A B} (P : A -> Prop) (Q : B -> Prop) m f : qm P m -> (forall a, P a -> qm Q (f a)) -> qm Q (cbind m f).
Proof.
  intros M F s b s' C E. inv_bind E. destruct (M _ _ _ C E0) as (Q1 & P1).
  destruct (F v P1 s0 b s') as (Q2 & P2); auto.
  - rewrite (qt_func _ _ Q1). exact C.
  - split; [eapply quiet_trans; eauto|exact P2].
Qed.
Lemma qm_ret {A} (P : A -> Prop) a : P a -> qm P (cret a).
Proof. intros H s b s' _ E. apply cret_ok in E as (-> & ->). split; [apply quiet_refl|auto]. Qed.
Lemma qm_fail {A} (P : A -> Prop) : qm P cfail.
Proof. intros s a s' _ E. discriminate. Qed.
Lemma qm_ub {A} (P : A -> Prop) : qm P cub.
Proof. intros s a s' _ E. discriminate. Qed.
Lemma qm_abort {A} (P : A -> Prop) : qm P cabort.
Proof. intros s a s' _ E. discriminate. Qed.
Lemma qm_fuel {A} (P : A -> Prop) : qm P (fun _ => CFuel).
Proof. intros s a s' _ E. discriminate. Qed.
Lemma qm_tbl {A} (P : A -> Prop) (m : tbl -> cres tbl A) :
  (forall t a t', tb_func t = cur -> m t = COk a t' -> quiet t t' /\ P a) -> qm P (on_tbl m).
Proof.
  intros M s a s' C E. unfold on_tbl in E. destruct (m (ps_tbl s)) eqn:Em; try discriminate.
  injection E as <- <-. exact (M _ _ _ C Em).
Qed.
Lemma qm_next : qm (fun _ => True) next_token.
Proof.
  intros s a s' _ E. unfold next_token in E. destruct (ps_toks s) as [|t ts].
  - destruct (ps_end s); try discriminate. injection E as _ <-. split; auto. apply quiet_refl.
  - injection E as _ <-. split; auto. apply quiet_refl.
Qed.
Lemma qm_last : qm (fun _ => True) last_tok.
Proof. intros s a s' _ [= _ <-]. split; auto. apply quiet_refl. Qed.
Lemma qm_line : qm (fun _ => True) the_line.
Proof. intros s a s' _ [= _ <-]. split; auto. apply quiet_refl. Qed.
Lemma qm_int : qm (fun _ => True) the_int.
Proof. intros s a s' _ [= _ <-]. split; auto. apply quiet_refl. Qed.
Lemma qm_the_tbl : qm (fun t => tb_func t = cur) the_tbl.
Proof. apply qm_tbl. intros t a t' C [= -> <-]. split; auto. apply quiet_refl. Qed.
Lemma qm_lexeme : qm (fun _ => True) lexeme.
Proof. intros s a s' _ E. unfold lexeme in E. destruct (tk_lexeme _); try discriminate. injection E as _ <-. split; auto. apply quiet_refl. Qed.
Lemma qm_weaken {A} (P Q : A -> Prop) m : qm P m -> (forall a, P a -> Q a) -> qm Q m.
Proof. intros M I s a s' C E. destruct (M _ _ _ C E). auto. Qed.
Lemma qm_reader {A B} (P : A -> Prop) (g : pst -> B) (f : B -> pm A) : (forall b, qm P (f b)) -> qm P (fun s => f (g s) s).
Proof. intros F s a s' C E. exact (F _ _ _ _ C E). Qed.

Lemma qm_if {A} (P : A -> Prop) (b : bool) m m' : qm P m -> qm P m' -> qm P (if b then m else m').
Proof. destruct b; auto. Qed.

Lemma qm_expect k : qm (fun _ => True) (expect k).
Proof. unfold expect. eapply qm_bind; [apply qm_last|]. intros t _. apply qm_if; [apply qm_ret; auto|apply qm_fail]. Qed.
Lemma qm_get_expect k : qm (fun _ => True) (get_expect k).
Proof. unfold get_expect. eapply qm_bind; [apply qm_next|]. intros _ _. apply qm_expect. Qed.

Ltac qstep :=
  match goal with
  | |- qm _ (cbind next_token _) => eapply qm_bind; [apply qm_next|intros _ _]
  | |- qm _ (cbind last_tok _) => eapply qm_bind; [apply qm_last|intros ? _]
  | |- qm _ (cbind the_line _) => eapply qm_bind; [apply qm_line|intros ? _]
  | |- qm _ (cbind the_int _) => eapply qm_bind; [apply qm_int|intros ? _]
  | |- qm _ (cbind lexeme _) => eapply qm_bind; [apply qm_lexeme|intros ? _]
  | |- qm _ (cbind (expect _) _) => eapply qm_bind; [apply qm_expect|intros _ _]
  | |- qm _ (cbind (get_expect _) _) => eapply qm_bind; [apply qm_get_expect|intros _ _]
  | |- qm _ (cbind the_tbl _) => eapply qm_bind; [apply qm_the_tbl|intros ? _]
  | |- qm _ (cret _) => apply qm_ret
  | |- qm _ cfail => apply qm_fail
  | |- qm _ cub => apply qm_ub
  | |- qm _ cabort => apply qm_abort
  | |- qm _ (if _ then _ else _) => apply qm_if
  end.
Ltac qsteps := repeat qstep.

Lemma qm_type : qm (fun _ => True) parse_type.
Proof.
  unfold parse_type. qsteps. eapply qm_bind.
  { apply qm_tbl. intros t g t' _ E. split; [eapply tag_from_name_quiet; eauto|]. exact I. }
  intros g _. qsteps; auto. destruct (tag_eq_dec g GVoid); qsteps. eapply qm_bind.
  { apply qm_tbl. intros t g' t' _ E. split; [eapply get_nullable_quiet; eauto|]. exact I. }
  intros g' _. qsteps. auto.
Qed.

Definition all_exprs (n : nat) : Prop :=
  qm (scoped cur) (parse_expr n) /\ qm (scoped cur) (parse_factor n) /\
  (forall p e, scoped cur e -> qm (scoped cur) (parse_rhs n p e)) /\
  (forall e, scoped cur e -> qm (scoped cur) (parse_suffix n e)) /\
  qm (scoped cur) (parse_value n) /\
  (forall e, scoped cur e -> qm (scoped cur) (parse_dots n e)) /\
  qm (scopeds cur) (parse_call n) /\ qm (scopeds cur) (parse_args n) /\
  qm (fun p => scopeds cur (snd p)) (parse_new n).

Lemma exprs_ok : forall n, all_exprs n.
Proof.
  induction n as [|n (He & Hf & Hr & Hs & Hv & Hd & Hc & Ha & Hn)].
  { unfold all_exprs; repeat split; intros; try apply qm_fuel; cbn; discriminate. }
  unfold all_exprs. split; [|split; [|split; [|split; [|split; [|split; [|split; [|split]]]]]]].
  - cbn. eapply qm_bind; [exact Hf|]. intros. apply Hr; auto.
  - cbn. eapply qm_bind; [exact Hv|]. intros. apply Hs; auto.
  - intros p e He0. cbn [parse_rhs]. qsteps. destruct (prec_of a) as [q|]; [|qsteps; auto].
    destruct (bop_of a) as [o|]; qsteps; auto.
    eapply qm_bind; [exact Hf|]. intros r Hr0. qsteps. eapply qm_bind.
    { apply qm_if; [apply Hr; auto|apply qm_ret; exact Hr0]. }
    intros r' Hr'. apply Hr. apply Forall_app; auto.
  - intros e He0. cbn [parse_suffix]. qsteps. destruct a; qsteps; auto.
    + eapply qm_bind; [exact He|]. intros i Hi. qsteps. apply Hs. apply Forall_app; auto.
    + eapply qm_bind; [exact Hc|]. intros args Hargs. apply Hs. unfold scoped. cbn. apply Forall_app. split; auto.
      apply scopeds_flat. exact Hargs.
  - cbn [parse_value]. qsteps. destruct a; qsteps; auto; try (constructor; fail).
    all: try (eapply qm_bind; [first [exact Hf|exact He]|]; intros; qsteps; auto; fail).
    all: try (apply (qm_reader _ (fun s => tk_b (ps_tok s)) (fun b => cbind next_token (fun _ => cret (EBool b)))); intros; qsteps; constructor).
    all: try (apply (qm_reader _ (fun s => tk_f (ps_tok s)) (fun b => cbind next_token (fun _ => cret (EFloat b)))); intros; qsteps; constructor).
    + eapply qm_bind; [apply qm_tbl; intros t i t' _ E; split; [eapply intern_quiet; eauto|exact I]|].
      intros i _. qsteps. constructor.
    + eapply qm_bind; [exact Hc|]. intros args Hargs. qsteps. apply scopeds_flat. exact Hargs.
    + eapply qm_bind with (P := fun r => match r with Some x => in_scope cur x | None => True end).
      { apply qm_tbl. intros t r t' Ht E. pose proof (reference_variable_same _ _ _ _ E). subst t'.
        split; [apply quiet_refl|]. destruct r; auto. rewrite <- Ht. eapply reference_variable_scope; eauto. }
      intros [r|] Hr0; qsteps; constructor; auto.
    + eapply qm_bind; [exact He|]. intros c Hc0. eapply qm_bind; [exact He|]. intros x Hx. qsteps.
      eapply qm_bind; [exact He|]. intros y Hy. qsteps. unfold scoped. cbn. rewrite !Forall_app. auto.
    + eapply qm_bind; [apply qm_tbl; intros t i t' _ E; split; [eapply declare_struct_quiet; eauto|exact I]|].
      intros i _. qsteps. eapply qm_bind; [exact Hn|]. intros [names args] Hargs. qsteps. apply scopeds_flat. exact Hargs.
    + eapply qm_bind; [exact He|]. intros e He0. qsteps. eapply qm_bind; [apply qm_type|]. intros g _. qsteps.
      apply Hd. exact He0.
  - intros e He0. cbn [parse_dots]. qsteps; auto.
  - cbn [parse_call]. qsteps. eapply qm_bind; [exact Ha|]. intros args Hargs. qsteps. auto.
  - cbn [parse_args]. qsteps; [constructor|]. eapply qm_bind; [exact He|]. intros e He0. qsteps.
    eapply qm_bind with (P := fun _ => True); [qsteps; auto; apply qm_next|]. intros _ _.
    eapply qm_bind; [exact Ha|]. intros es Hes. qsteps. constructor; auto.
  - cbn [parse_new]. qsteps; [constructor|].
    eapply qm_bind with (P := fun _ => True); [qsteps; auto|]. intros nm _.
    eapply qm_bind; [exact He|]. intros e He0. qsteps.
    eapply qm_bind with (P := fun _ => True); [qsteps; auto; apply qm_next|]. intros _ _.
    eapply qm_bind; [exact Hn|]. intros [ns es] Hes. qsteps. constructor; auto.
Qed.

Lemma qm_expr n : qm (scoped cur) (parse_expr n).
Proof. apply exprs_ok. Qed.
Lemma qm_factor n : qm (scoped cur) (parse_factor n).
Proof. apply exprs_ok. Qed.

Lemma qm_params n : qm (fun _ => True) (parse_params n).
Proof.
  induction n as [|n IH]; [apply qm_fuel|]. cbn [parse_params]. qsteps; auto.
  eapply qm_bind; [apply qm_type|]. intros g _. qsteps.
  eapply qm_bind with (P := fun _ => True); [qsteps; auto; apply qm_next|]. intros _ _.
  eapply qm_bind; [exact IH|]. intros. qsteps. auto.
Qed.
Lemma qm_use_args n : qm (fun _ => True) (parse_use_args n).
Proof.
  induction n as [|n IH]; [apply qm_fuel|]. cbn [parse_use_args]. qsteps; auto.
  eapply qm_bind with (P := fun _ => True); [qsteps; auto; apply qm_next|]. intros _ _.
  eapply qm_bind; [exact IH|]. intros. qsteps. auto.
Qed.
Lemma qm_use n line : qm (fun st => usrefs st = [] /\ ubodies st = []) (parse_use n line).
Proof.
  unfold parse_use. qsteps. eapply qm_bind; [apply qm_use_args|]. intros args _. qsteps; auto.
Qed.
End Quiet.

(** ** Statements *)

(** Symbols that were there before stay what they are, except for the function
    being parsed, the structure [x] being defined, and structures that were not
    defined before. *)
Definition undefined (y : sym) : bool :=
  match sy_body y with SyStruct false _ => true | _ => false end.
Definition older (x : option nat) (t t' : tbl) : Prop :=
  forall id y, sym_at t id = Some y -> tb_func t <> Some id -> x <> Some id -> undefined y = false ->
    exists y', sym_at t' id = Some y' /\ erase y' = erase y.

Record grewx (x : option nat) (t t' : tbl) (l : list (nat * stmt)) : Prop := mkGrew {
  gr_good : good full t -> good full t';
  gr_func : tb_func t' = tb_func t;
  gr_funs : good full t -> funs (tb_syms t') = funs (tb_syms t) ++ map fst l;
  gr_bodies : Forall (fun p => Forall (in_scope (Some (fst p))) (usrefs (snd p))) l;
  gr_strings : exists x, tb_strings t' = tb_strings t ++ x;
  gr_old : good full t -> older x t t';
  gr_labels : good full t -> exists ns, map label (tb_syms t') = map label (tb_syms t) ++ ns;
  gr_count : forall k, count t k <= count t' k
}.
Notation grew := (grewx None).
Notation nofuns t t' := (grew t t' []).
Arguments gr_good {x}. Arguments gr_func {x}. Arguments gr_funs {x}. Arguments gr_bodies {x}.
Arguments gr_strings {x}. Arguments gr_old {x}.

Lemma undefined_erase y y' : erase y' = erase y -> undefined y' = undefined y.
Proof.
  destruct y as [i n b], y' as [i' n' b']; unfold erase, undefined; cbn. intros [= _ _ E].
  destruct b, b'; cbn in E; try discriminate; auto. injection E as -> _. reflexivity.
Qed.

Lemma older_refl x t : older x t t.
Proof. intros id y E _ _ _. eauto. Qed.
Lemma older_trans x a b c : tb_func b = tb_func a -> older x a b -> older x b c -> older x a c.
Proof.
  intros F A B id y E N X U. destruct (A id y E N X U) as (y1 & E1 & R1).
  destruct (B id y1 E1) as (y2 & E2 & R2); auto; [congruence|rewrite (undefined_erase _ _ R1); auto|].
  exists y2. split; auto. congruence.
Qed.

Lemma grew_refl x t : grewx x t t [].
Proof.
  constructor; auto; [intros _; cbn; rewrite app_nil_r; auto|exists []; rewrite app_nil_r; auto|intros; apply older_refl|
    intros _; exists []; rewrite app_nil_r; auto].
Qed.
Lemma grew_trans x a b c l l' : grewx x a b l -> grewx x b c l' -> grewx x a c (l ++ l').
Proof.
  intros [A1 A2 A3 A4 (u & A5) A6 A7 A8] [B1 B2 B3 B4 (u' & B5) B6 B7 B8]. constructor; auto; try congruence.
  - intros G. rewrite B3, A3, map_app, app_assoc by auto. reflexivity.
  - apply Forall_app. auto.
  - exists (u ++ u'). rewrite B5, A5, app_assoc. reflexivity.
  - intros G. eapply older_trans; eauto.
  - intros G. destruct (A7 G) as (v & A9). destruct (B7 (A1 G)) as (v' & B9).
    exists (v ++ v'). rewrite B9, A9, app_assoc. reflexivity.
  - intros k. etransitivity; [apply A8|apply B8].
Qed.
Lemma grew_any x t t' l : grew t t' l -> grewx x t t' l.
Proof.
  intros [A1 A2 A3 A4 A5 A6 A7 A8]. constructor; auto. intros G id y E N X U. apply (A6 G id y E N); auto. discriminate.
Qed.
Lemma quiet_grew x t t' : quiet t t' -> grewx x t t' [].
Proof.
  intros [A1 A2 A3 A4 A5 A6 A7 A8]. constructor; auto.
  - intros _. rewrite A4. cbn. rewrite app_nil_r. reflexivity.
  - intros _ id y E _ _ _. exists y. auto.
  - intros k. rewrite A5. auto.
Qed.

(** Rewriting a symbol *)
Lemma sym_at_put t f y b id : sym_at t f = Some y ->
  sym_at (put_body t f b) id = if id =? f then Some (mkSym f (sy_name y) b) else sym_at t id.
Proof.
  intros Y. unfold sym_at, put_body. cbn [set_syms tb_syms].
  rewrite (find_map (fun s0 => if sy_id s0 =? f then mkSym f (sy_name s0) b else s0) (fun s0 => sy_id s0 =? id)).
  - destruct (Nat.eqb_spec id f) as [->|N].
    + unfold sym_at in Y. rewrite Y. cbn. apply sym_at_in in Y as (_ & ->). rewrite Nat.eqb_refl. reflexivity.
    + destruct (find _ _) as [z|] eqn:Z; [|reflexivity]. cbn. apply find_some in Z as (_ & Z).
      apply Nat.eqb_eq in Z. destruct (Nat.eqb_spec (sy_id z) f); congruence.
  - intros z. destruct (Nat.eqb_spec (sy_id z) f) as [Ez|]; cbn; congruence.
Qed.

Lemma put_grewx x t f y b : sym_at t f = Some y -> key b = key (sy_body y) ->
  (good full t -> body_ok None b) ->
  (tb_func t = Some f \/ x = Some f \/ undefined y = true \/ erase_body b = erase_body (sy_body y)) ->
  grewx x t (put_body t f b) [].
Proof.
  intros E K B O. constructor; auto.
  - intros G. eapply put_good; [exact G|exact E|exact K|exact (B G)|reflexivity].
  - intros G. cbn [map]. rewrite app_nil_r. eapply put_keys; eauto.
  - exists []. rewrite app_nil_r. reflexivity.
  - intros _ id z Ez N X U. rewrite (sym_at_put _ _ _ _ _ E). destruct (Nat.eqb_spec id f) as [->|]; [|eauto].
    rewrite E in Ez. injection Ez as <-. eexists. split; [reflexivity|].
    destruct O as [O|[O|[O|O]]]; try congruence. apply sym_at_in in E as (_ & <-). unfold erase. cbn. rewrite O. reflexivity.
  - intros G. exists []. rewrite app_nil_r. apply put_map. intros z Iz Ez.
    rewrite (sym_at_unique _ _ _ _ (gd_unique _ _ G) E Iz Ez). unfold label. cbn. rewrite K.
    apply sym_at_in in E as (_ & <-). reflexivity.
Qed.
Lemma put_grew t f y b : sym_at t f = Some y -> key b = key (sy_body y) ->
  (good full t -> body_ok None b) ->
  (tb_func t = Some f \/ undefined y = true \/ erase_body b = erase_body (sy_body y)) ->
  nofuns t (put_body t f b).
Proof. intros E K B O. eapply put_grewx; eauto. tauto. Qed.

Lemma scope_grew t n : nofuns t (set_scope t n).
Proof.
  constructor; auto.
  - apply good_same; reflexivity.
  - intros _. cbn. rewrite app_nil_r. reflexivity.
  - exists []. rewrite app_nil_r. reflexivity.
  - intros _. apply (older_refl None t).
  - intros _. exists []. rewrite app_nil_r. reflexivity.
Qed.

Lemma good_at w t id y : good w t -> sym_at t id = Some y -> body_ok (w id) (sy_body y).
Proof.
  intros G E. apply sym_at_in in E as [I <-]. exact (proj1 (Forall_forall _ _) (gd_body _ _ G) _ I).
Qed.

Lemma positions_map k (g : lvar -> lvar) vs : (forall v, lv_index (g v) = lv_index v) -> positions k vs -> positions k (map g vs).
Proof.
  intros Hg P i v E. rewrite nth_error_map in E. destruct (nth_error vs i) as [v0|] eqn:N; try discriminate.
  injection E as <-. rewrite Hg. exact (P _ _ N).
Qed.
Lemma positions_app k vs v : positions k vs -> lv_index v = (Z.of_nat (length vs) - k)%Z -> positions k (vs ++ [v]).
Proof.
  intros P E i x N. destruct (Nat.lt_ge_cases i (length vs)) as [L|L].
  - rewrite nth_error_app1 in N by auto. exact (P _ _ N).
  - rewrite nth_error_app2 in N by auto. destruct (i - length vs) as [|j] eqn:D.
    + injection N as <-. rewrite E. lia.
    + destruct j; discriminate.
Qed.
Lemma positions_update k vs i g v0 : (forall v, lv_index (g v) = lv_index v) -> nth_error vs i = Some v0 ->
  positions k vs -> positions k (update vs i (g v0)).
Proof.
  intros Hg N P j v E. destruct (Nat.eq_dec i j) as [->|D].
  - rewrite nth_error_update_eq in E by (apply nth_error_Some; congruence). injection E as <-. rewrite Hg. exact (P _ _ N).
  - rewrite nth_error_update_ne in E by auto. exact (P _ _ E).
Qed.

Lemma close_scope_grew t u t' : close_scope t = COk u t' -> nofuns t t'.
Proof.
  unfold close_scope. destruct (tb_func t) as [f|] eqn:F; [|intros [= _ <-]; apply scope_grew].
  destruct (sym_at t f) as [[fi fn []]|] eqn:E; try discriminate. intros [= _ <-].
  apply (grew_trans _ _ (put_body t f (SyFunc index args (map (end_scope (tb_scope t)) locals) ret)) _ [] []).
  - eapply put_grew; [exact E|reflexivity| |left; exact F]. intros G. pose proof (good_at _ _ _ _ G E) as (B1 & B2). split; auto.
    apply positions_map; auto. intros v. unfold end_scope. destruct (_ =? _); reflexivity.
  - apply scope_grew.
Qed.

Lemma put_var_grew t r g t' : (forall v, erase_var (g v) = erase_var v) -> put_var t r g = Some t' -> nofuns t t'.
Proof.
  intros He. assert (Hg : forall v, lv_index (g v) = lv_index v) by (intros v; specialize (He v); unfold erase_var in He; congruence).
  destruct r as [id|id|f i|f i]; cbn [put_var]; try discriminate;
    destruct (sym_at t f) as [[fi fn []]|] eqn:E; try discriminate.
  - destruct (nth_error locals i) as [v|] eqn:N; try discriminate. intros [= <-]. eapply put_grew; [exact E|reflexivity| |right; right; cbn; f_equal; erewrite update_erase by eauto; reflexivity].
    intros G. pose proof (good_at _ _ _ _ G E) as (B1 & B2). split; auto. apply positions_update; auto.
  - destruct (nth_error args i) as [v|] eqn:N; try discriminate. intros [= <-]. eapply put_grew; [exact E|reflexivity| |right; right; cbn; f_equal; erewrite update_erase by eauto; reflexivity].
    intros G. pose proof (good_at _ _ _ _ G E) as (B1 & B2). split; auto. cbn in B2. rewrite update_length.
    apply positions_update; auto.
Qed.

Lemma set_var_tag_grew r g t u t' : set_var_tag r g t = COk u t' -> nofuns t t'.
Proof.
  unfold set_var_tag. destruct r as [id|id|f i|f i]; try discriminate.
  - destruct (sym_at t id) as [[fi fn []]|] eqn:E; try discriminate. intros [= _ <-].
    eapply put_grew; [exact E|reflexivity| |right; right; reflexivity]. intros _. exact I.
  - destruct (put_var t (RLocal f i) (lv_set_tag g)) eqn:E; try discriminate. intros [= _ <-].
    eapply put_var_grew; [|exact E]. reflexivity.
  - destruct (put_var t (RArg f i) (lv_set_tag g)) eqn:E; try discriminate. intros [= _ <-].
    eapply put_var_grew; [|exact E]. reflexivity.
Qed.

Lemma new_grew t t' name b : tb_syms t' = tb_syms t ++ [mkSym (tb_next t) name b] -> tb_next t' = S (tb_next t) ->
  (forall k, count t' k = count t k + bump k b) ->
  (forall k i, key b = [(k, i)] -> i = count t k) -> body_ok None b -> is_func_body b = false ->
  tb_func t' = tb_func t -> tb_strings t' = tb_strings t -> nofuns t t'.
Proof.
  intros E1 E2 C K B N F S. constructor; auto.
  - intros G. eapply new_good; eauto.
  - intros _. rewrite E1. unfold funs. rewrite flat_map_app. f_equal. destruct b; cbn in *; try discriminate; reflexivity.
  - exists []. rewrite app_nil_r. exact S.
  - intros _ id y E _ _ _. exists y. split; auto. unfold sym_at in *. rewrite E1, find_app, E. reflexivity.
  - intros _. eexists. rewrite E1, map_app. reflexivity.
  - intros k. rewrite C. lia.
Qed.

Lemma declare_global_grew name t r t' : declare_global name t = COk r t' -> nofuns t t' /\ in_scope None r.
Proof.
  unfold declare_global. intros E. inv_bind E. pose proof (reference_variable_same _ _ _ _ E0). subst s.
  assert (E' : (let '(id, t1) := new_sym t name (SyGlobal (tb_nglob t) false None) in
      COk (RGlobal id) (set_nglob t1 (S (tb_nglob t)))) = COk r t') by (destruct v as [[]|]; try discriminate; exact E).
  clear E. cbn in E'. injection E' as <- <-. split; [|exact I].
  eapply new_grew with (b := SyGlobal (tb_nglob t) false None) (name := name); try reflexivity.
  - intros []; cbn; lia.
  - intros k i [= <- <-]. reflexivity.
Qed.

Lemma declare_local_grew name t r t' : declare_local name t = COk r t' -> nofuns t t' /\ in_scope (tb_func t) r.
Proof.
  unfold declare_local. destruct (tb_func t) as [f|] eqn:F; try discriminate.
  destruct (sym_at t f) as [[fi fn []]|] eqn:E; try discriminate. destruct (find_index _ _ _); try discriminate.
  intros [= <- <-]. split; [|reflexivity]. eapply put_grew; [exact E|reflexivity| |left; exact F].
  intros G. pose proof (good_at _ _ _ _ G E) as (B1 & B2). split; auto. apply positions_app; auto. cbn. lia.
Qed.

Lemma declare_const_grew name c t u t' : declare_const name c t = COk u t' -> nofuns t t'.
Proof.
  unfold declare_const. intros E. inv_bind E. pose proof (reference_variable_same _ _ _ _ E0). subst s.
  destruct v; try discriminate. injection E as _ <-. apply quiet_grew, new_quiet; [reflexivity|exact I].
Qed.

Lemma set_ret_grew f g t u t' : tb_func t = Some f -> set_ret f g t = COk u t' -> nofuns t t'.
Proof.
  intros F. unfold set_ret. destruct (sym_at t f) as [[fi fn []]|] eqn:E; try discriminate. intros [= _ <-].
  eapply put_grew; [exact E|reflexivity| |left; exact F]. intros G. exact (good_at _ _ _ _ G E).
Qed.

(** ** Programs over the parser state *)
Definition sm {A} (cur : option nat) (R : A -> list vref) (B : A -> list (nat * stmt)) (m : pm A) : Prop :=
  forall s a s', tb_func (ps_tbl s) = cur -> m s = COk a s' ->
    grew (ps_tbl s) (ps_tbl s') (B a) /\ Forall (in_scope cur) (R a).

(** a step [m] that declares no function, then the rest *)
Definition nf {A} (cur : option nat) (P : A -> Prop) (m : pm A) : Prop :=
  forall s a s', tb_func (ps_tbl s) = cur -> m s = COk a s' -> nofuns (ps_tbl s) (ps_tbl s') /\ P a.

Lemma qm_nf {A} cur (P : A -> Prop) m : qm cur P m -> nf cur P m.
Proof. intros Q s a s' C E. destruct (Q _ _ _ C E). split; auto. apply quiet_grew. auto. Qed.

Lemma nf_bind {A B} cur (P : A -> Prop) (Q : B -> Prop) m f : nf cur P m -> (forall a, P a -> nf cur Q (f a)) -> nf cur Q (cbind m f).
Proof.
  intros M F s b s' C E. inv_bind E. destruct (M _ _ _ C E0) as (Q1 & P1).
  destruct (F v P1 s0 b s') as (Q2 & P2); auto.
  - rewrite (gr_func _ _ _ Q1). exact C.
  - split; [exact (grew_trans _ _ _ _ _ _ Q1 Q2)|exact P2].
Qed.
Lemma nf_tbl {A} cur (P : A -> Prop) (m : tbl -> cres tbl A) :
  (forall t a t', tb_func t = cur -> m t = COk a t' -> nofuns t t' /\ P a) -> nf cur P (on_tbl m).
Proof.
  intros M s a s' C E. unfold on_tbl in E. destruct (m (ps_tbl s)) eqn:Em; try discriminate.
  injection E as <- <-. exact (M _ _ _ C Em).
Qed.
Lemma nf_ret {A} cur (P : A -> Prop) a : P a -> nf cur P (cret a).
Proof. intros H. apply qm_nf, qm_ret. exact H. Qed.

Lemma sm_nf {A B} cur (P : A -> Prop) (R : B -> list vref) (Bd : B -> list (nat * stmt)) m f :
  nf cur P m -> (forall a, P a -> sm cur R Bd (f a)) -> sm cur R Bd (cbind m f).
Proof.
  intros M F s b s' C E. inv_bind E. destruct (M _ _ _ C E0) as (Q1 & P1).
  destruct (F v P1 s0 b s') as (Q2 & P2); auto.
  - rewrite (gr_func _ _ _ Q1). exact C.
  - split; [exact (grew_trans _ _ _ _ _ _ Q1 Q2)|exact P2].
Qed.
Lemma sm_nf_end {A} cur (P : A -> Prop) (R : A -> list vref) (Bd : A -> list (nat * stmt)) m :
  nf cur P m -> (forall a, P a -> Forall (in_scope cur) (R a) /\ Bd a = []) -> sm cur R Bd m.
Proof. intros M F s a s' C E. destruct (M _ _ _ C E) as (Q1 & P1). destruct (F _ P1) as (X & ->). auto. Qed.
Lemma sm_quiet {A B} cur (P : A -> Prop) (R : B -> list vref) (Bd : B -> list (nat * stmt)) m f :
  qm cur P m -> (forall a, P a -> sm cur R Bd (f a)) -> sm cur R Bd (cbind m f).
Proof. intros Q. apply sm_nf. apply qm_nf. exact Q. Qed.
(** [m] may declare functions: the results are in [R1], [B1] *)
Lemma sm_bind {A B} cur R1 B1 (R : B -> list vref) (Bd : B -> list (nat * stmt)) (m : pm A) f :
  sm cur R1 B1 m ->
  (forall a, Forall (in_scope cur) (R1 a) ->
     forall s b s', tb_func (ps_tbl s) = cur -> f a s = COk b s' ->
       exists l, Bd b = B1 a ++ l /\ grew (ps_tbl s) (ps_tbl s') l /\ Forall (in_scope cur) (R b)) ->
  sm cur R Bd (cbind m f).
Proof.
  intros M F s b s' C E. inv_bind E. destruct (M _ _ _ C E0) as (Q1 & P1).
  destruct (F v P1 s0 b s') as (l & -> & Q2 & P2); auto.
  - rewrite (gr_func _ _ _ Q1). exact C.
  - split; [exact (grew_trans _ _ _ _ _ _ Q1 Q2)|exact P2].
Qed.
Lemma sm_fail {A} cur (R : A -> list vref) B : sm cur R B cfail.
Proof. intros s a s' _ E. discriminate. Qed.
Lemma sm_ub {A} cur (R : A -> list vref) B : sm cur R B cub.
Proof. intros s a s' _ E. discriminate. Qed.
Lemma sm_fuel {A} cur (R : A -> list vref) B : sm cur R B (fun _ => CFuel).
Proof. intros s a s' _ E. discriminate. Qed.
Lemma sm_ret {A} cur (R : A -> list vref) B a : Forall (in_scope cur) (R a) -> B a = [] -> sm cur R B (cret a).
Proof. intros H E s b s' _ X. apply cret_ok in X as (-> & ->). rewrite E. split; auto. apply grew_refl. Qed.
Lemma sm_if {A} cur (R : A -> list vref) B (b : bool) m m' : sm cur R B m -> sm cur R B m' -> sm cur R B (if b then m else m').
Proof. destruct b; auto. Qed.

Lemma nf_mod cur f : (forall t, nofuns t (f t)) -> nf cur (fun _ => True) (mod_tbl f).
Proof. intros F. apply nf_tbl. intros t a t' _ [= _ <-]. auto. Qed.

Lemma sm_simple cur n : sm cur usrefs ubodies (parse_simple n).
Proof.
  unfold parse_simple. eapply sm_quiet; [apply qm_line|]. intros line0 _.
  eapply sm_quiet; [apply qm_factor|]. intros lhs Hl.
  assert (T : sm cur usrefs ubodies
     (cbind last_tok (fun op => cbind the_line (fun line =>
      cbind (if tok_eqb op DECLARE || tok_eqb op COLON then
           match lhs with
           | EId name _ =>
               cbind the_tbl (fun tb =>
               cbind (on_tbl (match tb_func tb with
                            | Some _ => declare_local name
                            | None => declare_global name end)) (fun r =>
               if tok_eqb op COLON then
                 cbind next_token (fun _ =>
                 cbind parse_type (fun g =>
                 cbind (on_tbl (set_var_tag r g)) (fun _ =>
                 cbind (expect EQUAL) (fun _ =>
                 cret (EId name (Some r), EQUAL)))))
               else cret (EId name (Some r), op)))
           | _ => cfail
           end
         else cret (lhs, op)) (fun x => let '(lhs', op') := x in
      match prec_of op' with
      | Some _ => cfail
      | None =>
          cbind next_token (fun _ =>
          cbind (parse_expr n) (fun rhs =>
          cbind (if tok_eqb op' DECLARECONST then
             match lhs' with
             | EId name _ =>
                 match const_of rhs with
                 | Some c => on_tbl (declare_const name c)
                 | None => cfail
                 end
             | _ => cfail
             end
           else cret tt) (fun _ =>
          cret (SAsg line op' lhs' rhs))))
      end))))).
  { eapply sm_quiet; [apply qm_last|]. intros op _. eapply sm_quiet; [apply qm_line|]. intros line _.
    eapply sm_nf with (P := fun x => scoped cur (fst x)).
    { destruct (tok_eqb op DECLARE || tok_eqb op COLON); [|apply nf_ret; exact Hl].
      destruct lhs; try (apply qm_nf, qm_fail).
      eapply nf_bind; [apply qm_nf, qm_the_tbl|]. intros tb Ht.
      eapply nf_bind with (P := in_scope cur).
      { apply nf_tbl. intros t x t' C E. rewrite Ht in E. destruct cur as [f|].
        - rewrite <- C. apply (declare_local_grew _ _ _ _ E).
        - apply (declare_global_grew _ _ _ _ E). }
      intros r0 Hr0. assert (scoped cur (EId name (Some r0))) by (repeat constructor; auto).
      destruct (tok_eqb op COLON); [|apply nf_ret; auto].
      eapply nf_bind; [apply qm_nf, qm_next|]. intros _ _.
      eapply nf_bind; [apply qm_nf, qm_type|]. intros g _.
      eapply nf_bind with (P := fun _ => True).
      { apply nf_tbl. intros t x t' C E. split; auto. eapply set_var_tag_grew; eauto. }
      intros _ _. eapply nf_bind; [apply qm_nf, qm_expect|]. intros _ _. apply nf_ret; auto. }
    intros [lhs' op'] Hl'. cbn in Hl'. destruct (prec_of op'); [apply sm_fail|].
    eapply sm_quiet; [apply qm_next|]. intros _ _. eapply sm_quiet; [apply qm_expr|]. intros rhs Hr0.
    eapply sm_nf with (P := fun _ => True).
    { destruct (tok_eqb op' DECLARECONST); [|apply nf_ret; auto].
      destruct lhs'; try (apply qm_nf, qm_fail). destruct (const_of rhs); [|apply qm_nf, qm_fail].
      apply nf_tbl. intros t x t' C E. split; auto. eapply declare_const_grew; eauto. }
    intros _ _. apply sm_ret; auto. apply Forall_app. auto. }
  destruct lhs; try exact T. apply sm_ret; auto.
Qed.

(** ** Parameters *)
Definition wants (f k : nat) (g : nat) : option nat := if g =? f then Some k else None.

Lemma wants_full f k t args : good (wants f k) t ->
  (exists i n l r, sym_at t f = Some (mkSym f n (SyFunc i args l r))) -> length args = k -> good full t.
Proof.
  intros [A B C D E] (i & n & l & r & Y) L. constructor; auto.
  eapply Forall_forall. intros y Hy. pose proof (proj1 (Forall_forall _ _) E y Hy) as Bo. cbn beta in Bo.
  unfold wants in Bo. destruct (Nat.eqb_spec (sy_id y) f) as [Ef|]; auto.
  pose proof (sym_at_unique _ _ _ _ A Y Hy Ef). subst y. cbn in *. rewrite L. exact Bo.
Qed.

Lemma on_tbl_ok {A} (m : tbl -> cres tbl A) s a s' : on_tbl m s = COk a s' -> m (ps_tbl s) = COk a (ps_tbl s').
Proof. unfold on_tbl. destruct (m (ps_tbl s)); try discriminate. intros [= <- <-]. reflexivity. Qed.

Lemma declare_params_frame k ps : forall s u s', declare_params k ps s = COk u s' ->
  tb_func (ps_tbl s') = tb_func (ps_tbl s) /\ tb_strings (ps_tbl s') = tb_strings (ps_tbl s) /\
  forall k, count (ps_tbl s') k = count (ps_tbl s) k.
Proof.
  induction ps as [|[nm g] ps IH]; intros s u s' E; cbn [declare_params] in E.
  - apply cret_ok in E as (_ & ->). auto.
  - inv_bind E. apply IH in E. destruct E as (-> & -> & Ec). apply on_tbl_ok in E0. unfold declare_argument in E0.
    destruct (tb_func (ps_tbl s)) eqn:F; try discriminate. destruct (sym_at (ps_tbl s) n) as [[? ? []]|]; try discriminate.
    destruct (find_index _ _ _); try discriminate. injection E0 as _ E0. rewrite <- E0 in *. repeat split; auto.
Qed.

Lemma declare_params_ok f k ps : forall s u s' i n args l r, tb_func (ps_tbl s) = Some f ->
  declare_params k ps s = COk u s' -> good (wants f k) (ps_tbl s) ->
  sym_at (ps_tbl s) f = Some (mkSym f n (SyFunc i args l r)) -> length args + length ps = k ->
  good full (ps_tbl s') /\ tb_func (ps_tbl s') = Some f /\ funs (tb_syms (ps_tbl s')) = funs (tb_syms (ps_tbl s)) /\
  tb_strings (ps_tbl s') = tb_strings (ps_tbl s) /\
  (forall id, id <> f -> sym_at (ps_tbl s') id = sym_at (ps_tbl s) id) /\
  map label (tb_syms (ps_tbl s')) = map label (tb_syms (ps_tbl s)).
Proof.
  induction ps as [|[nm g] ps IH]; intros s u s' i n args l r C E G Y L; cbn [declare_params] in E.
  - apply cret_ok in E as (_ & ->). split; [|auto]. eapply wants_full; eauto. cbn in L. lia.
  - inv_bind E. unfold on_tbl, declare_argument in E0. rewrite C, Y in E0.
    destruct (find_index (named nm) args 0); try discriminate. injection E0 as _ <-.
    set (b := SyFunc i (args ++ [mkLv nm (- Z.of_nat k + Z.of_nat (length args)) 0 false false (Some g)]) l r) in *.
    pose proof (good_at _ _ _ _ G Y) as (B1 & B2). unfold wants in B2. rewrite Nat.eqb_refl in B2.
    assert (K : key b = key (SyFunc i args l r)) by reflexivity.
    destruct (put_keys _ _ _ _ b G Y K) as (_ & F & Ids).
    assert (Lb : map label (tb_syms (put_body (ps_tbl s) f b)) = map label (tb_syms (ps_tbl s))).
    { apply put_map. intros z Iz Ez. rewrite (sym_at_unique _ _ _ _ (gd_unique _ _ G) Y Iz Ez). reflexivity. }
    eapply IH in E.
    + cbn [ps_tbl] in E. rewrite F, Lb in E. destruct E as (E1 & E2 & E3 & E4 & E5 & E6). repeat (split; [assumption|]).
      split; [|exact E6]. intros id N. rewrite (E5 id N), (sym_at_put _ _ _ _ _ Y). apply Nat.eqb_neq in N. rewrite N. reflexivity.
    + exact C.
    + cbn [ps_tbl]. eapply put_good; [exact G|exact Y|exact K| |reflexivity].
      unfold wants. rewrite Nat.eqb_refl. split; auto. apply positions_app; auto. cbn. lia.
    + cbn [ps_tbl]. unfold sym_at, put_body. cbn [set_syms tb_syms].
      rewrite (find_map (fun s0 => if sy_id s0 =? f then mkSym f (sy_name s0) b else s0) (fun s0 => sy_id s0 =? f)).
      * unfold sym_at in Y. rewrite Y. cbn. rewrite Nat.eqb_refl. reflexivity.
      * intros x. destruct (Nat.eqb_spec (sy_id x) f) as [Ex|Nx]; cbn; [apply Nat.eqb_refl|]. apply Nat.eqb_neq. exact Nx.
    + rewrite app_length. cbn in *. lia.
Qed.

(** ** Statements *)
Lemma grew_nil_r t t' l : grew t t' (l ++ []) -> grew t t' l.
Proof. rewrite app_nil_r. auto. Qed.

Lemma func_ok n cur : (forall cur, sm cur usrefs ubodies (parse_stmt n)) -> cur = None ->
  forall line, sm cur usrefs ubodies
   (get_expect IDENT ;;;
              name <- lexeme ;;
              f <- on_tbl (declare_function name) ;;
              mod_tbl (fun t => set_func t (Some f)) ;;;
              get_expect OPENPAREN ;;;
              next_token ;;;
              ps <- parse_params n ;;
              declare_params (length ps) ps ;;;
              next_token ;;;
              t' <- last_tok ;;
              (if tok_eqb t' COLON then
                 next_token ;;; g <- parse_type ;; on_tbl (set_ret f g)
               else on_tbl (set_ret f GVoid)) ;;;
              mod_tbl open_scope ;;;
              body <- parse_stmt n ;;
              on_tbl close_scope ;;;
              mod_tbl (fun t => set_func t None) ;;;
              cret (SProc line f body))%cm.
Proof.
  intros IH Cn line. eapply sm_quiet; [apply qm_get_expect|]. intros _ _. eapply sm_quiet; [apply qm_lexeme|]. intros name _.
  intros s a s' C E. subst cur.
  apply cbind_ok in E as (f & s1 & E1 & E). apply on_tbl_ok in E1.
  unfold declare_function in E1. cbn in E1. injection E1 as Ef Et1.
  apply cbind_ok in E as (u1 & s2 & E2 & E). unfold mod_tbl in E2. apply on_tbl_ok in E2. injection E2 as _ Et2.
  set (t := ps_tbl s) in *.
  (* the rest runs inside the function *)
  apply cbind_ok in E as (u2 & s3 & E3 & E). apply cbind_ok in E as (u3 & s4 & E4 & E).
  apply cbind_ok in E as (ps & s5 & E5 & E).
  assert (C2 : tb_func (ps_tbl s2) = Some f) by (rewrite <- Et2; reflexivity).
  destruct (qm_get_expect (Some f) OPENPAREN _ _ _ C2 E3) as (Q3 & _).
  destruct (qm_next (Some f) _ _ _ ltac:(rewrite (qt_func _ _ Q3); exact C2) E4) as (Q4 & _).
  pose proof (quiet_trans _ _ _ Q3 Q4) as Q34.
  destruct (qm_params (Some f) n _ _ _ ltac:(rewrite (qt_func _ _ Q34); exact C2) E5) as (Q5 & _).
  pose proof (quiet_trans _ _ _ Q34 Q5) as Q. clear Q3 Q4 Q34 Q5 E3 E4 E5.
  apply cbind_ok in E as (u4 & s6 & E6 & E).
  assert (C5 : tb_func (ps_tbl s5) = Some f) by (rewrite (qt_func _ _ Q); exact C2).
  destruct (declare_params_frame _ _ _ _ _ E6) as (F6 & St6 & Ct6). rewrite C5 in F6.
  (* from there on *)
  apply cbind_ok in E as (u5 & s7 & E7 & E). apply cbind_ok in E as (tk & s8 & E8 & E).
  destruct (qm_next (Some f) _ _ _ F6 E7) as (Q7 & _). injection E8 as _ <-.
  apply cbind_ok in E as (u6 & s9 & E9 & E).
  assert (G9 : nofuns (ps_tbl s7) (ps_tbl s9)).
  { destruct (tok_eqb tk COLON).
    - apply cbind_ok in E9 as (v1 & q1 & W1 & E9). apply cbind_ok in E9 as (v2 & q2 & W2 & E9).
      assert (C7 : tb_func (ps_tbl s7) = Some f) by (rewrite (qt_func _ _ Q7); exact F6).
      destruct (qm_next (Some f) _ _ _ C7 W1) as (X1 & _).
      destruct (qm_type (Some f) _ _ _ ltac:(rewrite (qt_func _ _ X1); exact C7) W2) as (X2 & _).
      apply on_tbl_ok in E9. apply (grew_trans _ _ (ps_tbl q2) _ [] []).
      + apply quiet_grew. eapply quiet_trans; eauto.
      + eapply set_ret_grew; [|eauto]. rewrite (qt_func _ _ X2), (qt_func _ _ X1). exact C7.
    - apply on_tbl_ok in E9. eapply set_ret_grew; [|eauto]. rewrite (qt_func _ _ Q7). exact F6. }
  apply cbind_ok in E as (u7 & s10 & E10 & E). unfold mod_tbl in E10. apply on_tbl_ok in E10. injection E10 as _ Et10.
  pose proof (scope_grew (ps_tbl s9) (S (tb_scope (ps_tbl s9)))) as G10. unfold open_scope in Et10. rewrite Et10 in G10.
  assert (G610 : nofuns (ps_tbl s6) (ps_tbl s10)).
  { apply (grew_trans _ _ (ps_tbl s7) _ [] []); [apply quiet_grew; auto|]. apply (grew_trans _ _ (ps_tbl s9) _ [] []); auto. }
  apply cbind_ok in E as (body & s11 & E11 & E).
  assert (C10 : tb_func (ps_tbl s10) = Some f) by (rewrite (gr_func _ _ _ G610); exact F6).
  destruct (IH (Some f) _ _ _ C10 E11) as (G11 & R11).
  apply cbind_ok in E as (u8 & s12 & E12 & E). apply on_tbl_ok in E12. apply close_scope_grew in E12.
  assert (G612 : grew (ps_tbl s6) (ps_tbl s12) (ubodies body)).
  { apply grew_nil_r. eapply grew_trans; [|exact E12]. exact (grew_trans _ _ _ _ [] _ G610 G11). }
  apply cbind_ok in E as (u9 & s13 & E13 & E). unfold mod_tbl in E13. apply on_tbl_ok in E13. injection E13 as _ Et13.
  apply cret_ok in E as (-> & ->). split; [|constructor].
  assert (Main : good full t -> good full (ps_tbl s6) /\ funs (tb_syms (ps_tbl s6)) = funs (tb_syms t) ++ [f] /\
    (forall id y, sym_at t id = Some y -> id <> f /\ sym_at (ps_tbl s6) id = Some y) /\
    exists ns, map label (tb_syms (ps_tbl s6)) = map label (tb_syms t) ++ ns).
  { intros G. assert (Y1 : sym_at (ps_tbl s1) f = Some (mkSym f name (SyFunc (tb_nfun t) [] [] None))).
    { rewrite <- Et1. unfold sym_at. cbn. rewrite find_app. destruct (find _ _) as [y|] eqn:Y.
      - pose proof (sym_at_lt _ _ _ _ G Y). lia.
      - cbn. rewrite Ef, Nat.eqb_refl. reflexivity. }
    assert (G1 : good full (ps_tbl s1)).
    { eapply new_good with (t := t) (name := name) (b := SyFunc (tb_nfun t) [] [] None); auto; try (rewrite <- Et1; reflexivity).
      - rewrite <- Et1. intros []; cbn; lia.
      - intros k i [= <- <-]. reflexivity.
      - split; intros [|] v; discriminate. }
    assert (G2 : good (wants f (length ps)) (ps_tbl s2)).
    { rewrite <- Et2. apply good_same with (t := ps_tbl s1); try reflexivity.
      replace (ps_tbl s1) with (ps_tbl s1) by reflexivity. destruct G1 as [A B D F K]. constructor; auto.
      apply Forall_forall. intros y Hy. unfold wants. destruct (Nat.eqb_spec (sy_id y) f) as [Ey|].
      - pose proof (sym_at_unique _ _ _ _ A Y1 Hy Ey). subst y. cbn. split; intros [|] v; discriminate.
      - exact (proj1 (Forall_forall _ _) K y Hy). }
    assert (Y2 : sym_at (ps_tbl s2) f = Some (mkSym f name (SyFunc (tb_nfun t) [] [] None))) by (rewrite <- Et2; exact Y1).
    pose proof (qt_good _ _ Q _ G2) as G5.
    pose proof (qt_at _ _ Q _ _ Y2) as Y5.
    destruct (declare_params_ok f (length ps) ps _ _ _ _ _ _ _ _ C5 E6 G5 Y5 eq_refl) as (G6 & _ & F6' & _ & At6 & Lb6).
    split; auto. split; [|split].
    - rewrite F6', (qt_funs _ _ Q), <- Et2. cbn [set_func tb_syms]. rewrite <- Et1. cbn.
      unfold funs. rewrite flat_map_app. cbn. rewrite Ef. reflexivity.
    - intros id y Y. assert (N : id <> f) by (pose proof (sym_at_lt _ _ _ _ G Y); lia). split; auto.
      rewrite (At6 id N). apply (qt_at _ _ Q). rewrite <- Et2, <- Et1. unfold sym_at in *. cbn. rewrite find_app, Y. reflexivity.
    - destruct (qt_labels _ _ Q) as (ns & Ns). rewrite Lb6, Ns, <- Et2, <- Et1. cbn. rewrite map_app, <- app_assoc.
      eexists. reflexivity. }
  constructor.
  - intros G. destruct (Main G) as (G6 & _). rewrite <- Et13. apply good_same with (t := ps_tbl s12); try reflexivity.
    apply (gr_good _ _ _ G612). exact G6.
  - rewrite <- Et13. symmetry. exact C.
  - intros G. destruct (Main G) as (G6 & F & _). rewrite <- Et13. cbn [set_func tb_syms].
    rewrite (gr_funs _ _ _ G612 G6), F, <- app_assoc. reflexivity.
  - cbn [ubodies]. constructor; [exact R11|apply (gr_bodies _ _ _ G612)].
  - rewrite <- Et13. cbn [set_func tb_strings]. destruct (gr_strings _ _ _ G612) as (x & X). destruct (qt_strings _ _ Q) as (y & Y).
    exists (y ++ x). rewrite X, St6, Y, <- Et2, <- Et1. cbn. rewrite app_assoc. reflexivity.
  - intros G. destruct (Main G) as (G6 & _ & At & _). intros id y Y _ X U. destruct (At id y Y) as (N & Y6).
    rewrite <- Et13. apply (gr_old _ _ _ G612 G6 id y Y6); auto. rewrite F6. congruence.
  - intros G. destruct (Main G) as (G6 & _ & _ & (ns & Ns)). destruct (gr_labels _ _ _ _ G612 G6) as (ns' & Ns').
    rewrite <- Et13. cbn [set_func tb_syms]. rewrite Ns', Ns, <- app_assoc. eexists. reflexivity.
  - intros k. assert (X : count (ps_tbl s12) k <= count (ps_tbl s13) k) by (rewrite <- Et13; destruct k; cbn; auto).
    pose proof (gr_count _ _ _ _ G612 k) as Y. rewrite Ct6, (qt_count _ _ Q) in Y.
    assert (Z : count t k <= count (ps_tbl s2) k) by (rewrite <- Et2, <- Et1; destruct k; cbn; lia). lia.
Qed.

Ltac sq := match goal with
  | |- sm _ _ _ (cbind next_token _) => eapply sm_quiet; [apply qm_next|intros _ _]
  | |- sm _ _ _ (cbind last_tok _) => eapply sm_quiet; [apply qm_last|intros ? _]
  | |- sm _ _ _ (cbind the_line _) => eapply sm_quiet; [apply qm_line|intros ? _]
  | |- sm _ _ _ (cbind the_tbl _) => eapply sm_quiet; [apply qm_the_tbl|intros ? ?]
  | |- sm _ _ _ (cbind (expect _) _) => eapply sm_quiet; [apply qm_expect|intros _ _]
  | |- sm _ _ _ (cbind (parse_expr _) _) => eapply sm_quiet; [apply qm_expr|intros ? ?]
  | |- sm _ _ _ (cbind (mod_tbl open_scope) _) => eapply sm_nf; [apply nf_mod; intros; apply scope_grew|intros _ _]
  | |- sm _ _ _ (if _ then _ else _) => apply sm_if
  | |- sm _ _ _ cfail => apply sm_fail
  | |- sm _ _ _ cub => apply sm_ub
  end.

Lemma nf_close cur : nf cur (fun _ => True) (on_tbl close_scope).
Proof. apply nf_tbl. intros t u t' _ E. split; auto. eapply close_scope_grew; eauto. Qed.

(** the last sub-statement, then steps that declare nothing *)
Lemma sm_last {A B C} cur R1 B1 (R : B -> list vref) (Bd : B -> list (nat * stmt)) (m : pm A) (k : pm C) (g : A -> B) :
  sm cur R1 B1 m -> nf cur (fun _ => True) k ->
  (forall a, Forall (in_scope cur) (R1 a) -> Forall (in_scope cur) (R (g a))) -> (forall a, Bd (g a) = B1 a) ->
  sm cur R Bd (cbind m (fun a => cbind k (fun _ => cret (g a)))).
Proof.
  intros M K Rg Bg. eapply sm_bind; [exact M|]. intros a Ra s b s' C0 E. inv_bind E. apply cret_ok in E as (-> & ->).
  exists []. rewrite app_nil_r, Bg. split; auto. split; auto. apply (K _ _ _ C0 E0).
Qed.
Lemma sm_map {A B} cur R1 B1 (R : B -> list vref) (Bd : B -> list (nat * stmt)) (m : pm A) (g : A -> B) :
  sm cur R1 B1 m -> (forall a, Forall (in_scope cur) (R1 a) -> Forall (in_scope cur) (R (g a))) -> (forall a, Bd (g a) = B1 a) ->
  sm cur R Bd (cbind m (fun a => cret (g a))).
Proof.
  intros M Rg Bg s b s' C0 E. inv_bind E. apply cret_ok in E as (-> & ->). rewrite Bg.
  destruct (M _ _ _ C0 E0). auto.
Qed.
(** several sub-statements in a row *)
Lemma sm_sub {A B} cur R1 B1 (R : B -> list vref) (Bd : B -> list (nat * stmt)) R' B' (m : pm A) f :
  sm cur R1 B1 m ->
  (forall a, Forall (in_scope cur) (R1 a) -> sm cur (R' a) (B' a) (f a)) ->
  (forall a b, Forall (in_scope cur) (R1 a) -> Forall (in_scope cur) (R' a b) -> Forall (in_scope cur) (R b)) ->
  (forall a s b s', f a s = COk b s' -> Bd b = B1 a ++ B' a b) ->
  sm cur R Bd (cbind m f).
Proof.
  intros M F Rg Bg. eapply sm_bind; [exact M|]. intros a Ra s b s' C0 E. exists (B' a b).
  destruct (F a Ra _ _ _ C0 E). split; [eauto|]. split; auto. eauto.
Qed.

Lemma qm_at {A} cur (P : A -> Prop) (m : pm A) : qm cur P m -> forall s a s', tb_func (ps_tbl s) = cur -> m s = COk a s' ->
  quiet (ps_tbl s) (ps_tbl s') /\ P a /\ tb_func (ps_tbl s') = cur.
Proof. intros M s a s' C E. destruct (M _ _ _ C E) as (Q & R). rewrite (qt_func _ _ Q). auto. Qed.
Lemma nf_at {A} cur (P : A -> Prop) (m : pm A) : nf cur P m -> forall s a s', tb_func (ps_tbl s) = cur -> m s = COk a s' ->
  nofuns (ps_tbl s) (ps_tbl s') /\ P a /\ tb_func (ps_tbl s') = cur.
Proof. intros M s a s' C E. destruct (M _ _ _ C E) as (Q & R). rewrite (gr_func _ _ _ Q). auto. Qed.
Lemma sm_at {A} cur R B (m : pm A) : sm cur R B m -> forall s a s', tb_func (ps_tbl s) = cur -> m s = COk a s' ->
  grew (ps_tbl s) (ps_tbl s') (B a) /\ Forall (in_scope cur) (R a) /\ tb_func (ps_tbl s') = cur.
Proof. intros M s a s' C E. destruct (M _ _ _ C E) as (Q & R0). rewrite (gr_func _ _ _ Q). auto. Qed.

Lemma stmts_inv : forall n, (forall cur, sm cur usrefs ubodies (parse_stmt n)) /\
  (forall cur, sm cur (flat_map usrefs) (flat_map ubodies) (parse_block n)).
Proof.
  induction n as [|n (IHs & IHb)]; [split; intros; apply sm_fuel|]. split; intros cur.
  - cbn [parse_stmt]. sq. destruct a; try apply sm_simple.
    + (* { *) repeat sq. eapply sm_bind; [apply IHb|]. intros ss Hss s b s' C E. inv_bind E. inv_bind E. apply cret_ok in E as (-> & ->).
      destruct (qm_at _ _ _ (qm_next cur) _ _ _ C E0) as (Q1 & _ & C1).
      destruct (nf_close cur _ _ _ C1 E1) as (Q2 & _).
      exists []. rewrite app_nil_r. split; auto. split; auto. exact (grew_trans _ _ _ _ [] [] (quiet_grew _ _ _ Q1) Q2).
    + (* if *) repeat sq. eapply sm_bind; [apply IHs|]. intros a1 Ha1 s b s' C E. inv_bind E. injection E0 as <- <-.
      destruct (tok_eqb (tk (ps_tok s)) ELSE).
      * inv_bind E. inv_bind E. apply cret_ok in E as (-> & ->). destruct (qm_at _ _ _ (qm_next cur) _ _ _ C E0) as (Q1 & _ & C1).
        destruct (IHs cur _ _ _ C1 E1) as (Q2 & R2).
        exists (ubodies v0). split; auto. split; [exact (grew_trans _ _ _ _ [] _ (quiet_grew _ _ _ Q1) Q2)|].
        cbn. rewrite !Forall_app. auto.
      * apply cret_ok in E as (-> & ->). exists []. rewrite app_nil_r. split; auto. split; [apply grew_refl|].
        cbn. rewrite !Forall_app. auto.
    + (* while *) repeat sq. eapply sm_last; [apply IHs|apply nf_close| |reflexivity]. intros. cbn. apply Forall_app. auto.
    + (* for *) repeat sq. eapply sm_bind; [apply IHs|]. intros i Hi s b s' C E.
      apply cbind_ok in E as (u1 & s1 & E1 & E). apply cbind_ok in E as (u2 & s2 & E2 & E).
      apply cbind_ok in E as (c & s3 & E3 & E). apply cbind_ok in E as (u4 & s4 & E4 & E).
      apply cbind_ok in E as (u5 & s5 & E5 & E). apply cbind_ok in E as (st & s6 & E6 & E).
      apply cbind_ok in E as (bd & s7 & E7 & E). apply cbind_ok in E as (u8 & s8 & E8 & E). apply cret_ok in E as (-> & ->).
      destruct (qm_at _ _ _ (qm_expect cur _) _ _ _ C E1) as (Q1 & _ & C1).
      destruct (qm_at _ _ _ (qm_next cur) _ _ _ C1 E2) as (Q2 & _ & C2).
      destruct (qm_at _ _ _ (qm_expr cur _) _ _ _ C2 E3) as (Q3 & R3 & C3).
      destruct (qm_at _ _ _ (qm_expect cur _) _ _ _ C3 E4) as (Q4 & _ & C4).
      destruct (qm_at _ _ _ (qm_next cur) _ _ _ C4 E5) as (Q5 & _ & C5).
      assert (Q : quiet (ps_tbl s) (ps_tbl s5)) by (eauto 10 using quiet_trans).
      destruct (sm_at _ _ _ _ (IHs cur) _ _ _ C5 E6) as (Q6 & R6 & C6).
      destruct (sm_at _ _ _ _ (IHs cur) _ _ _ C6 E7) as (Q7 & R7 & C7).
      destruct (nf_close cur _ _ _ C7 E8) as (Q8 & _).
      exists (ubodies st ++ ubodies bd). split; [reflexivity|]. split.
      * apply (grew_trans _ _ _ _ [] _ (quiet_grew _ _ _ Q)). apply (grew_trans _ _ _ _ _ _ Q6).
        apply grew_nil_r. exact (grew_trans _ _ _ _ _ _ Q7 Q8).
      * cbn. rewrite !Forall_app. auto.
    + (* return *) sq. destruct (tb_func a) as [f|] eqn:Fa; [|apply sm_fail]. repeat sq.
      * apply sm_ret; [constructor|reflexivity].
      * destruct (sym_at _ f) as [[? ? []]|]; try apply sm_ub. destruct ret; try apply sm_ub.
        destruct (tag_eq_dec t GVoid); [apply sm_fail|]. repeat sq. apply sm_ret; auto.
    + (* func *) sq. destruct (tb_func a) as [f|] eqn:Fa; [apply sm_fail|]. sq. apply func_ok; [exact IHs|congruence].
    + (* break *) repeat sq. apply sm_ret; [constructor|reflexivity].
    + (* continue *) repeat sq. apply sm_ret; [constructor|reflexivity].
    + (* use *) sq. destruct (tb_func a) as [f|] eqn:Fa; [apply sm_fail|]. repeat sq.
      eapply sm_nf_end; [apply qm_nf, qm_use|]. intros st (A1 & A2). rewrite A1. auto.
  - cbn [parse_block]. repeat sq; [apply sm_ret; [constructor|reflexivity]|].
    eapply sm_bind; [apply IHs|]. intros st Hst s b s' C E. inv_bind E. apply cret_ok in E as (-> & ->).
    destruct (IHb cur _ _ _ C E0) as (Q & R). exists (flat_map ubodies v). split; [reflexivity|]. split; auto.
    cbn. apply Forall_app. auto.
Qed.

(** ** Structures *)
Lemma nf_weaken {A} cur (P Q : A -> Prop) m : nf cur P m -> (forall a, P a -> Q a) -> nf cur Q m.
Proof. intros M I s a s' C E. destruct (M _ _ _ C E). auto. Qed.

Lemma fields_inv cur id : forall n s a s', tb_func (ps_tbl s) = cur ->
  (exists i nm fs, sym_at (ps_tbl s) id = Some (mkSym i nm (SyStruct true fs))) -> parse_fields n id s = COk a s' ->
  grewx (Some id) (ps_tbl s) (ps_tbl s') [].
Proof.
  induction n as [|n IH]; [intros; discriminate|]. cbn [parse_fields].
  intros s a s' C D E. inv_bind E. injection E0 as <- <-.
  destruct (tok_eqb _ CLOSECURLY); [apply cret_ok in E as (_ & ->); apply grew_refl|].
  apply cbind_ok in E as (u1 & s1 & E1 & E). apply cbind_ok in E as (nm & s2 & E2 & E). apply cbind_ok in E as (tb & s3 & E3 & E).
  destruct (qm_at _ _ _ (qm_expect cur _) _ _ _ C E1) as (Q1 & _ & C1).
  destruct (qm_at _ _ _ (qm_lexeme cur) _ _ _ C1 E2) as (Q2 & _ & C2).
  pose proof (on_tbl_ok _ _ _ _ E3) as E3'. injection E3' as Etb E3'.
  destruct (qm_at _ _ _ (qm_the_tbl cur) _ _ _ C2 E3) as (Q3 & _ & C3).
  destruct (sym_at tb id) as [[yi yn []]|] eqn:Y; try discriminate.
  destruct (Nat.leb_spec 255 (length fields)) as [L|L]; try discriminate. destruct (field_index fields nm); try discriminate.
  apply cbind_ok in E as (u4 & s4 & E4 & E). apply cbind_ok in E as (u5 & s5 & E5 & E). apply cbind_ok in E as (g & s6 & E6 & E).
  destruct (qm_at _ _ _ (qm_get_expect cur _) _ _ _ C3 E4) as (Q4 & _ & C4).
  destruct (qm_at _ _ _ (qm_next cur) _ _ _ C4 E5) as (Q5 & _ & C5).
  destruct (qm_at _ _ _ (qm_type cur) _ _ _ C5 E6) as (Q6 & _ & C6).
  apply cbind_ok in E as (u7 & s7 & E7 & E).
  assert (Q : quiet (ps_tbl s) (ps_tbl s6)) by (eauto 10 using quiet_trans).
  assert (Q36 : quiet (ps_tbl s3) (ps_tbl s6)) by (eauto 10 using quiet_trans).
  pose proof (qt_at _ _ Q36 id _ ltac:(rewrite <- E3', Etb; exact Y)) as Y6.
  destruct D as (i0 & nm0 & fs0 & D). pose proof (qt_at _ _ Q id _ D) as D6. rewrite Y6 in D6. injection D6 as -> -> -> ->.
  apply on_tbl_ok in E7. rewrite Y6 in E7. injection E7 as _ E7.
  assert (G7 : grewx (Some id) (ps_tbl s6) (ps_tbl s7) []).
  { rewrite <- E7. eapply put_grewx; [exact Y6|reflexivity| |right; left; reflexivity]. intros _. cbn.
    rewrite app_length. cbn. split; [lia|discriminate]. }
  assert (C7 : tb_func (ps_tbl s7) = cur) by (rewrite (gr_func _ _ _ G7); exact C6).
  apply (grew_trans _ _ _ _ [] [] (quiet_grew _ _ _ Q)). apply (grew_trans _ _ _ _ [] [] G7). eapply IH; eauto.
  rewrite <- E7, (sym_at_put _ _ _ _ _ Y6), Nat.eqb_refl. eauto.
Qed.

Lemma struct_inv cur n : nf cur (fun _ => True) (parse_struct n).
Proof.
  unfold parse_struct. eapply nf_bind; [apply qm_nf, qm_the_tbl|]. intros tb _.
  destruct (tb_func tb); [apply qm_nf, qm_fail|].
  eapply nf_bind; [apply qm_nf, qm_get_expect|]. intros _ _. eapply nf_bind; [apply qm_nf, qm_lexeme|]. intros name _.
  eapply nf_bind with (P := fun _ => True).
  { apply nf_tbl. intros t i t' _ E. split; auto. apply quiet_grew. eapply declare_struct_quiet; eauto. }
  intros id _. intros s a s' C E. apply cbind_ok in E as (tb1 & s1 & E1 & E).
  pose proof (on_tbl_ok _ _ _ _ E1) as E1'. injection E1' as Etb E1'.
  destruct (qm_at _ _ _ (qm_the_tbl cur) _ _ _ C E1) as (_ & _ & C1).
  destruct (sym_at tb1 id) as [[yi yn []]|] eqn:Y; try discriminate. destruct defined; try discriminate.
  apply cbind_ok in E as (u2 & s2 & E2 & E). unfold mod_tbl in E2. apply on_tbl_ok in E2. injection E2 as _ E2.
  assert (G2 : nofuns (ps_tbl s) (ps_tbl s2)).
  { rewrite <- E2, <- E1', Etb. eapply put_grew; [exact Y|reflexivity| |right; left; reflexivity].
    intros G. split; [apply (good_at _ _ _ _ G Y)|discriminate]. }
  assert (C2 : tb_func (ps_tbl s2) = cur) by (rewrite (gr_func _ _ _ G2); exact C).
  split; auto.
  apply cbind_ok in E as (u3 & s3 & E3 & E). apply cbind_ok in E as (u4 & s4 & E4 & E).
  apply cbind_ok in E as (u5 & s5 & E5 & E). apply cbind_ok in E as (u6 & s6 & E6 & E). apply cbind_ok in E as (tb2 & s7 & E7 & E).
  destruct (qm_at _ _ _ (qm_get_expect cur _) _ _ _ C2 E3) as (Q3 & _ & C3).
  destruct (qm_at _ _ _ (qm_next cur) _ _ _ C3 E4) as (Q4 & _ & C4).
  assert (D4 : exists i nm fs, sym_at (ps_tbl s4) id = Some (mkSym i nm (SyStruct true fs))).
  { do 3 eexists. apply (qt_at _ _ Q4), (qt_at _ _ Q3). rewrite <- E2, <- E1', Etb, (sym_at_put _ _ _ _ _ Y), Nat.eqb_refl. reflexivity. }
  pose proof (fields_inv cur id _ _ _ _ C4 D4 E5) as G5.
  assert (C5 : tb_func (ps_tbl s5) = cur) by (rewrite (gr_func _ _ _ G5); exact C4).
  destruct (qm_at _ _ _ (qm_next cur) _ _ _ C5 E6) as (Q6 & _ & C6).
  destruct (qm_at _ _ _ (qm_the_tbl cur) _ _ _ C6 E7) as (Q7 & _ & C7).
  assert (Es : s' = s7).
  { destruct (sym_at tb2 id) as [[? ? []]|]; try discriminate; try (apply cret_ok in E as (_ & ->); reflexivity).
    destruct fields0; try discriminate. apply cret_ok in E as (_ & ->); reflexivity. }
  subst s'.
  assert (G : grewx (Some id) (ps_tbl s) (ps_tbl s7) []).
  { apply (grew_trans _ _ _ _ [] [] (grew_any _ _ _ _ G2)). apply (grew_trans _ _ _ _ [] [] (quiet_grew _ _ _ Q3)).
    apply (grew_trans _ _ _ _ [] [] (quiet_grew _ _ _ Q4)). apply (grew_trans _ _ _ _ [] [] G5).
    apply quiet_grew. eapply quiet_trans; eauto. }
  destruct G as [A1 A2 A3 A4 A5 A6 A7]. constructor; auto.
  intros Gd id0 y0 Y0 N X U. apply (A6 Gd id0 y0 Y0 N); auto. intros [= ->].
  rewrite <- Etb, Y0 in Y. injection Y as ->. discriminate.
Qed.

(** ** Programs *)
Lemma top_inv cur : forall n, sm cur (flat_map usrefs) (flat_map ubodies) (parse_top n).
Proof.
  induction n as [|n IH]; [apply sm_fuel|]. cbn [parse_top]. sq.
  assert (S : sm cur (flat_map usrefs) (flat_map ubodies)
     (s <- parse_stmt n ;; ss <- parse_top n ;; cret (s :: ss))%cm).
  { eapply sm_bind; [apply stmts_inv|]. intros st Hst s b s' C E. inv_bind E. apply cret_ok in E as (-> & ->).
    destruct (IH _ _ _ C E0) as (Q & R). exists (flat_map ubodies v). split; [reflexivity|]. split; auto.
    cbn. apply Forall_app. auto. }
  destruct a; try exact S; [|apply sm_ret; [constructor|reflexivity]].
  eapply sm_nf; [apply struct_inv|]. intros _ _. exact IH.
Qed.

Theorem program_inv n t src ss s : tb_func t = None -> parse_program n (start_parse t src) = COk ss s ->
  grew t (ps_tbl s) (flat_map ubodies ss) /\ Forall (in_scope None) (flat_map usrefs ss).
Proof.
  intros C E. assert (T : ps_tbl (start_parse t src) = t) by (unfold start_parse; destruct (lex_all src); reflexivity).
  assert (X : sm None (flat_map usrefs) (flat_map ubodies) (parse_program n)).
  { unfold parse_program. sq. apply top_inv. }
  rewrite <- T at 1. apply X; [rewrite T; exact C|exact E].
Qed.
