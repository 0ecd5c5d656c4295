(** * Code stays laid out when the symbol table grows *)
From Verif Require Import Base Token Values Code CodeSpec Syntax Symbols Compile Layout LayoutProofs CompileProofs
  TableInv ParserInv.
Local Open Scope nat_scope.

(** [t'] has everything [t] had; structures that [t] only mentions may change *)
Record extends (t t' : tbl) : Prop := mkExt {
  ex_at : forall id y, sym_at t id = Some y -> undefined y = false ->
    exists y', sym_at t' id = Some y' /\ erase y' = erase y;
  ex_labels : exists ns, map label (tb_syms t') = map label (tb_syms t) ++ ns
}.

Lemma extends_refl t : extends t t.
Proof. constructor; [eauto|exists []; rewrite app_nil_r; auto]. Qed.
Lemma extends_trans a b c : extends a b -> extends b c -> extends a c.
Proof.
  intros [A1 (n1 & A2)] [B1 (n2 & B2)]. constructor.
  - intros id y E U. destruct (A1 _ _ E U) as (y1 & E1 & R1).
    destruct (B1 _ _ E1 ltac:(rewrite (undefined_erase _ _ R1); exact U)) as (y2 & E2 & R2).
    exists y2. split; auto. congruence.
  - exists (n1 ++ n2). rewrite B2, A2, app_assoc. reflexivity.
Qed.

Lemma grew_extends t t' l : grew t t' l -> good full t -> tb_func t = None -> extends t t'.
Proof.
  intros [A1 A2 A3 A4 A5 A6 A7 _] G F. constructor; [|apply A7; auto].
  intros id y E U. apply (A6 G id y E); auto; rewrite ?F; discriminate.
Qed.

Lemma erase_label y y' : erase y' = erase y -> label y' = label y.
Proof.
  destruct y as [i n b], y' as [i' n' b']. unfold erase, label. cbn. intros [= -> -> E]. f_equal.
  destruct b, b'; cbn in E; try discriminate; auto; injection E; intros; subst; reflexivity.
Qed.

Lemma shape_extends t t' : same_shape t t' -> extends t t'.
Proof.
  intros S. constructor.
  - intros id y E U. pose proof (shape_sym_at _ _ id S) as X. rewrite E in X.
    destruct (sym_at t' id) as [y'|]; try discriminate. exists y'. split; auto. cbn [option_map] in X. congruence.
  - exists []. rewrite app_nil_r. destruct S as (S & _). revert S. generalize (tb_syms t) (tb_syms t').
    induction l as [|y l IH]; intros [|y' l'] S; try discriminate; auto. cbn [map] in *.
    assert (S1 : erase y = erase y') by congruence. rewrite (erase_label _ _ S1). f_equal. apply IH. congruence.
Qed.

Section Table.
Variables t t' : tbl.
Hypothesis G : good full t.
Hypothesis E : extends t t'.

Ltac at_sym id :=
  let Y := fresh "Y" in let Y' := fresh "Y'" in let R := fresh "R" in
  destruct (sym_at t id) as [[? ? []]|] eqn:Y; try discriminate;
  destruct (ex_at _ _ E _ _ Y eq_refl) as ([? ? []] & Y' & R); unfold erase in R; cbn in R; try discriminate; rewrite Y'.

Lemma gidx_ext id i : gidx t id = Some i -> gidx t' id = Some i.
Proof. unfold gidx. at_sym id. congruence. Qed.
Lemma cval_ext id c : cval t id = Some c -> cval t' id = Some c.
Proof. unfold cval. at_sym id. congruence. Qed.
Lemma vars_ext vs vs' i : map erase_var vs = map erase_var vs' ->
  option_map lv_index (nth_error vs i) = option_map lv_index (nth_error vs' i).
Proof.
  intros X. assert (Z : nth_error (map erase_var vs) i = nth_error (map erase_var vs') i) by congruence.
  rewrite !nth_error_map in Z. destruct (nth_error vs i), (nth_error vs' i); cbn in *; try discriminate; auto. unfold erase_var in Z. congruence.
Qed.
Lemma lidx_ext r k : lidx t r = Some k -> lidx t' r = Some k.
Proof.
  unfold lidx. destruct r as [id|id|f i|f i]; cbn [var_of]; try discriminate.
  - at_sym f. injection R as -> -> -> R1 R2 ->. rewrite (vars_ext _ _ i R2). auto.
  - at_sym f. injection R as -> -> -> R1 R2 ->. rewrite (vars_ext _ _ i R1). auto.
Qed.
Lemma sfields_ext id fs : sfields t id = Some fs -> sfields t' id = Some fs.
Proof.
  unfold sfields. destruct (sym_at t id) as [[? ? []]|] eqn:Y; try discriminate. destruct defined; try discriminate.
  destruct (ex_at _ _ E _ _ Y eq_refl) as ([? ? []] & Y' & R); unfold erase in R; cbn in R; try discriminate. rewrite Y'.
  injection R as -> -> -> ->. auto.
Qed.
Lemma field_no_ext g f k : field_no t g f = Some k -> field_no t' g f = Some k.
Proof.
  unfold field_no. destruct g as [| | | | | |id]; try discriminate.
  destruct (sym_at t id) as [[? ? []]|] eqn:Y; try discriminate. destruct defined.
  - destruct (ex_at _ _ E _ _ Y eq_refl) as ([? ? []] & Y' & R); unfold erase in R; cbn in R; try discriminate. rewrite Y'.
    injection R as -> -> -> ->. auto.
  - pose proof (good_at _ _ _ _ G Y) as (_ & B). rewrite (B eq_refl). discriminate.
Qed.
Lemma findex_ext f i : findex t f = Some i -> findex t' f = Some i.
Proof. unfold findex. at_sym f. congruence. Qed.

Lemma sym_call n id C a b : at_call C n (sym_at t id) a b -> at_call C n (sym_at t' id) a b.
Proof.
  intros (y & i & Y & I & A). assert (U : undefined y = false) by (destruct y as [? ? []]; auto; discriminate).
  destruct (ex_at _ _ E _ _ Y U) as (y' & Y' & R). exists y', i. split; auto. split; auto.
  rewrite (erase_call_instr _ _ y R). exact I.
Qed.

Definition fn_label (name : text) (l : nat * text * list (nkind * nat)) : bool :=
  match l with
  | (_, n, [(NFun, _)]) | (_, n, [(NForeign, _)]) => text_eqb n name
  | _ => false
  end.
Lemma fn_label_ok name y : fn_label name (label y) = is_function name y.
Proof. destruct y as [i n []]; reflexivity. Qed.

Lemma find_label name l : option_map label (find (is_function name) l) = find (fn_label name) (map label l).
Proof.
  induction l as [|y l IH]; auto. cbn [map find]. rewrite fn_label_ok. destruct (is_function name y); auto.
Qed.

Lemma reffun_ext (G' : unique t') name y : reference_function t name = Some y ->
  exists y', reference_function t' name = Some y' /\ erase y' = erase y.
Proof.
  intros X. unfold reference_function in *. pose proof (find_label name (tb_syms t')) as L.
  destruct (ex_labels _ _ E) as (ns & N). rewrite N, find_app, <- find_label, X in L. cbn in L.
  destruct (find (is_function name) (tb_syms t')) as [y'|] eqn:X'; try discriminate. exists y'. split; auto.
  injection L as L1 L2 L3. apply find_some in X as (I & F). apply find_some in X' as (I' & F').
  assert (U : undefined y = false) by (destruct y as [? ? []]; auto; discriminate).
  destruct (ex_at _ _ E _ _ (in_sym_at _ _ (gd_unique _ _ G) I) U) as (z & Z & R).
  rewrite <- L1, (in_sym_at _ _ G' I') in Z. congruence.
Qed.

Hypothesis G' : unique t'.

Lemma fun_call n name C a b : at_call C n (reference_function t name) a b -> at_call C n (reference_function t' name) a b.
Proof.
  intros (y & i & Y & I & A). destruct (reffun_ext G' _ _ Y) as (y' & Y' & R).
  exists y', i. split; auto. split; auto. rewrite (erase_call_instr _ _ y R). exact I.
Qed.

Lemma ref_ext C r a b : at_ref t C r a b -> at_ref t' C r a b.
Proof.
  destruct r; cbn [at_ref]; intros (k & K & A); exists k; split; auto;
    first [apply gidx_ext|apply cval_ext|apply lidx_ext]; auto.
Qed.
Lemma set_ext C r a b : at_set t C r a b -> at_set t' C r a b.
Proof.
  destruct r; cbn [at_set]; try tauto; intros (k & K & A); exists k; split; auto;
    first [apply gidx_ext|apply lidx_ext]; auto.
Qed.

Lemma seq_ext ls ls' : Forall2 (fun l l' : Z -> Z -> Prop => forall a b, l a b -> l' a b) ls ls' ->
  forall a b, lay_seq ls a b -> lay_seq ls' a b.
Proof. induction 1 as [|l l' ls ls' H F IH]; intros a b; cbn; auto. intros (m & L & S). eauto. Qed.
Lemma pick_ext f names : forall ls ls', Forall2 (fun l l' : Z -> Z -> Prop => forall a b, l a b -> l' a b) ls ls' ->
  forall a b, lay_pick f names ls a b -> lay_pick f names ls' a b.
Proof.
  induction names as [|nm names IH]; intros ls ls' F a b; destruct F as [|l l' ls ls' H F]; cbn; auto.
  destruct (text_eqb nm f); eauto.
Qed.
Lemma fields_ext fs names ls ls' : Forall2 (fun l l' : Z -> Z -> Prop => forall a b, l a b -> l' a b) ls ls' ->
  forall a b, lay_fields fs names ls a b -> lay_fields fs names ls' a b.
Proof. intros F. induction fs as [|f fs IH]; intros a b; cbn; auto. intros (m & L & S). exists m. split; eauto using pick_ext. Qed.
Lemma bin_ext C o i one (l r l' r' : Z -> Z -> Prop) : (forall a b, l a b -> l' a b) -> (forall a b, r a b -> r' a b) ->
  forall a b, lay_bin C o i one l r a b -> lay_bin C o i one l' r' a b.
Proof.
  intros L R a b (m & L1 & X). exists m. split; auto. destruct one; auto. destruct X as (m' & X1 & X2). eauto.
Qed.

Ltac take := repeat match goal with H : exists _, _ |- _ => destruct H | H : _ /\ _ |- _ => destruct H end.
Ltac give := repeat match goal with |- exists _, _ => eexists | |- _ /\ _ => split end;
  first [eassumption | apply sym_call; eassumption | apply fun_call; eassumption | apply field_no_ext; eassumption
        | apply set_ext; eassumption
        | match goal with IH : (forall C a b, lay t C ?e a b -> _) |- lay t' _ ?e _ _ => apply IH; eassumption end].

Lemma lay_table e : forall C a b, lay t C e a b -> lay t' C e a b.
Proof.
  induction e using texpr_ind'; intros C0 a0 b0 L; cbn [lay] in *; try assumption;
    try (apply ref_ext; assumption); try (apply IHe; assumption); try (take; give; fail).
  - destruct L as (m1 & m2 & L & L1 & L2). exists m1, m2. split; [|split; give].
    eapply seq_ext; [|exact L]. clear - H. induction H; constructor; auto.
  - destruct o; cbn [binop_of] in *; try (eapply bin_ext; [apply IHe1|apply IHe2|exact L]); take; give.
  - destruct o; [|take; give]. destruct e; take; give.
  - destruct L as (fs & m & F & L & L1). exists fs, m. split; [apply sfields_ext; exact F|]. split; auto.
    assert (X : Forall2 (fun l l' : Z -> Z -> Prop => forall a b, l a b -> l' a b) (map (lay t C0) args) (map (lay t' C0) args)).
    { clear - H. induction H; constructor; auto. }
    destruct ns; [eapply seq_ext|eapply fields_ext]; eauto.
Qed.

Lemma lays_table es C : Forall2 (fun l l' : Z -> Z -> Prop => forall a b, l a b -> l' a b) (map (lay t C) es) (map (lay t' C) es).
Proof. induction es; constructor; auto. apply lay_table. Qed.

Lemma call_table f args C a b : lay_call t C f args a b -> lay_call t' C f args a b.
Proof. intros (m & L & A). exists m. split; [eapply seq_ext; [apply lays_table|exact L]|apply fun_call; exact A]. Qed.
Lemma rhs_table op l r C a b : lay_rhs t C op l r a b -> lay_rhs t' C op l r a b.
Proof.
  unfold lay_rhs. destruct (compound_op op) as [[]|]; try (apply bin_ext; apply lay_table). apply lay_table.
Qed.
Lemma assign_table op l r C a b : lay_assign t C op l r a b -> lay_assign t' C op l r a b.
Proof.
  unfold lay_assign. destruct l; try tauto; intros L; take;
    repeat match goal with |- exists _, _ => eexists | |- _ /\ _ => split end;
    first [eassumption | apply set_ext; eassumption | apply rhs_table; eassumption | apply lay_table; eassumption
          | apply field_no_ext; eassumption | apply sym_call; eassumption].
Qed.

Lemma funlay_table (body body' : Z -> Z -> Prop) C f a b : (forall x y, body x y -> body' x y) ->
  lay_fun t C body f a b -> lay_fun t' C body' f a b.
Proof.
  intros B (i & args & locals & ret & m1 & m2 & Y & L & P & X & R). unfold lay_fun.
  destruct (sym_at t f) as [y|] eqn:Yf; try discriminate. cbn in Y. injection Y as Y.
  destruct (ex_at _ _ E _ _ Yf ltac:(unfold undefined; rewrite Y; reflexivity)) as (y' & Yf' & Er).
  destruct y' as [i' n' b']. unfold erase in Er. cbn in Er. rewrite Y in Er. injection Er as -> -> Er.
  destruct b'; try discriminate. cbn in Er. injection Er as E1 E2 E3 E4.
  assert (Ln : length locals0 = length locals) by (rewrite <- (map_length erase_var), E3, map_length; reflexivity).
  do 4 eexists. exists m1, m2. rewrite Yf'. split; [reflexivity|]. rewrite Ln. auto.
Qed.

Lemma stmt_table (F : nat -> Z -> Prop) s : forall T C a b p, lay_stmt t C F T s a b p -> lay_stmt t' C F T s a b p.
Proof.
  induction s using tstmt_ind'; intros T C0 a0 b0 p L; cbn [lay_stmt] in *; try assumption.
  - destruct L as (L & ->). split; auto. apply call_table; auto.
  - destruct L as (L & ->). split; auto. apply assign_table; auto.
  - destruct L as (L & ->). split; auto. apply assign_table; auto.
  - revert L. apply stmts_weaken. clear - H. induction H; constructor; auto.
  - destruct L as (-> & m & J & Ff & L). split; auto. exists m. split; auto. split; auto.
    eapply funlay_table; [|exact L]. intros x y (q & Q). exists q. auto.
  - destruct b as [y|].
    + destruct L as (m1 & m2 & m3 & m4 & p1 & p2 & L1 & L2 & L3 & L4 & L5 & ->).
      exists m1, m2, m3, m4, p1, p2. repeat split; auto using lay_table.
    + destruct L as (m1 & m2 & L1 & L2 & L3). exists m1, m2. auto using lay_table.
  - destruct L as (-> & m1 & m2 & m3 & q & L1 & L2 & L3 & L4). split; auto. exists m1, m2, m3, q. auto using lay_table.
  - destruct L as (-> & m0 & m1 & m2 & m3 & m4 & q1 & q2 & q3 & L1 & L2 & L3 & L4 & L5 & L6).
    split; auto. exists m0, m1, m2, m3, m4, q1, q2, q3. repeat split; auto using lay_table.
  - destruct e as [e|]; auto. destruct L as (-> & m & L & A). split; auto. exists m. auto using lay_table.
Qed.
End Table.
