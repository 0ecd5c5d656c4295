(** * The parser's references are those of Scope.v *)
From Coq Require Import Permutation.
From Verif Require Import Base Token Lexer Values Syntax Symbols Parser Compile CompileProofs TableInv ParserInv Grammar GrammarProofs GrammarSound Scope.
Local Open Scope nat_scope.
Local Open Scope cm_scope.

(** ** The table as an environment *)
Definition young (t : tbl) : Prop := Forall (fun y => sy_id y < tb_next t) (tb_syms t).

Lemma global_assoc t x : global_ref t x = assoc x (values t).
Proof.
  unfold global_ref, assoc, values. induction (tb_syms t) as [|y l IH]; auto. cbn [find filter]. unfold is_value_sym at 1, is_value at 1.
  destruct y as [i n b]. destruct b; cbn [sy_body sy_name]; auto; cbn [map find value fst sy_name]; destruct (text_eqb n x); auto.
Qed.

(** open locals: name, number, level *)
Fixpoint opens (i : nat) (l : list lvar) : list (text * nat * nat) :=
  match l with
  | [] => []
  | v :: l => if lv_ended v then opens (S i) l else (lv_name v, i, lv_scope v) :: opens (S i) l
  end.
Fixpoint flat (base : nat) (scs : list (list (text * nat))) : list (text * nat * nat) :=
  match scs with
  | [] => []
  | sc :: r => flat base r ++ map (fun p => (p, base + length scs)) sc
  end.

Lemma opens_app l : forall i k, opens i (l ++ k) = opens i l ++ opens (i + length l) k.
Proof. induction l as [|v l IH]; intros i k; cbn; [rewrite Nat.add_0_r; auto|]. rewrite IH. replace (S i + length l) with (i + S (length l)) by lia. destruct (lv_ended v); reflexivity. Qed.
Lemma opens_end k l : forall i, opens i (map (end_scope k) l) = filter (fun p => negb (snd p =? k)) (opens i l).
Proof.
  induction l as [|v l IH]; intros i; auto. cbn [map opens]. rewrite IH. clear IH. unfold end_scope.
  destruct (Nat.eqb_spec (lv_scope v) k) as [E|N]; cbn [lv_ended lv_name lv_scope]; destruct (lv_ended v); auto; cbn [filter snd].
  - apply Nat.eqb_eq in E. rewrite E. reflexivity.
  - apply Nat.eqb_neq in N. rewrite N. reflexivity.
Qed.
Lemma opens_find x l : forall i, find_index (open_named x) l i = option_map (fun p => snd (fst p)) (find (fun p => text_eqb (fst (fst p)) x) (opens i l)).
Proof.
  induction l as [|v l IH]; intros i; cbn; auto. unfold open_named at 1. destruct (lv_ended v); cbn; auto. destruct (text_eqb (lv_name v) x); auto.
Qed.
Lemma flat_level base scs : Forall (fun p => snd p <= base + length scs) (flat base scs).
Proof.
  induction scs as [|sc r IH]; cbn; [constructor|]. apply Forall_app. split; [eapply Forall_impl; [|exact IH]; cbn; lia|].
  apply Forall_map. apply Forall_forall. cbn. lia.
Qed.
Lemma flat_pop base sc r : filter (fun p => negb (snd p =? base + S (length r))) (flat base (sc :: r)) = flat base r.
Proof.
  cbn [flat length]. rewrite filter_app.
  replace (filter _ (map _ sc)) with (@nil (text * nat * nat)).
  2:{ induction sc as [|p sc IH]; auto. cbn [map filter snd]. rewrite Nat.eqb_refl. exact IH. }
  rewrite app_nil_r. pose proof (flat_level base r) as F. induction F as [|p l Lp _ IH]; auto. cbn [filter]. rewrite IH.
  destruct (Nat.eqb_spec (snd p) (base + S (length r))); [lia|]. reflexivity.
Qed.
Lemma flat_names base scs : map fst (flat base scs) = concat (rev scs).
Proof.
  induction scs as [|sc r IH]; auto. cbn [flat rev]. rewrite map_app, IH, concat_app. cbn [concat]. rewrite app_nil_r, map_map. f_equal.
  induction sc as [|[]]; cbn in *; congruence.
Qed.
Lemma concat_rev {A} (l : list (list A)) : Permutation (concat (rev l)) (concat l).
Proof.
  induction l as [|a l IH]; auto. cbn. rewrite concat_app. cbn. rewrite app_nil_r. rewrite IH. apply Permutation_app_comm.
Qed.
Lemma assoc_in {A} x (l : list (text * A)) v : NoDup (map fst l) -> (assoc x l = Some v <-> In (x, v) l).
Proof.
  unfold assoc. induction l as [|[y w] l IH]; cbn; [intros _; split; [discriminate|tauto]|]. intros N. inversion N as [|? ? Ni N']; subst.
  destruct (text_eqb y x) eqn:E.
  - apply text_eqb_eq in E. subst y. cbn. split; [intros [= ->]; auto|]. intros [[= ->]|I]; auto. destruct Ni. apply in_map_iff. exists (x, v). auto.
  - rewrite (IH N'). split; auto. intros [[= -> ->]|I]; auto. rewrite text_eqb_refl in E. discriminate.
Qed.
Lemma assoc_perm {A} x (l l' : list (text * A)) : NoDup (map fst l) -> Permutation l l' -> assoc x l = assoc x l'.
Proof.
  intros N P. assert (N' : NoDup (map fst l')) by (eapply Permutation_NoDup; [apply Permutation_map; exact P|exact N]).
  destruct (assoc x l) as [v|] eqn:E.
  - apply (assoc_in _ _ _ N) in E. symmetry. apply (assoc_in _ _ _ N'). eapply Permutation_in; eauto.
  - destruct (assoc x l') as [v|] eqn:E'; auto. apply (assoc_in _ _ _ N') in E'. apply Permutation_sym in P.
    eapply Permutation_in in E'; [|exact P]. apply (assoc_in _ _ _ N) in E'. congruence.
Qed.
Lemma assoc_none {A} x (l : list (text * A)) : assoc x l = None <-> ~ In x (map fst l).
Proof.
  unfold assoc. induction l as [|[y w] l IH]; cbn; [tauto|]. destruct (text_eqb y x) eqn:E; cbn.
  - apply text_eqb_eq in E. subst. split; [discriminate|]. intros H. destruct H. auto.
  - rewrite IH. split; [|tauto]. intros H [->|I]; auto. rewrite text_eqb_refl in E. discriminate.
Qed.

Lemma position_params x l : forall i, find_index (named x) l i = option_map (fun k => i + k) (position x (map lv_name l)).
Proof.
  induction l as [|v l IH]; intros i; cbn; auto. unfold named at 1. destruct (text_eqb (lv_name v) x); cbn; [rewrite Nat.add_0_r; auto|].
  rewrite IH. destruct (position x (map lv_name l)); cbn; auto.
Qed.

Record inside (E : env) (f : nat) (t : tbl) : Prop := {
  in_sym : exists base n i args locals r, sym_at t f = Some (mkSym f n (SyFunc i args locals r)) /\
    map lv_name args = en_params E /\ length locals = en_count E /\ tb_scope t = base + length (en_scopes E) /\
    opens 0 locals = flat base (en_scopes E);
  in_nodup : NoDup (map fst (concat (en_scopes E)))
}.
Record agrees (E : env) (t : tbl) : Prop := {
  ag_func : tb_func t = en_fun E;
  ag_values : values t = en_globals E;
  ag_young : young t;
  ag_unique : unique t;
  ag_inside : forall f, en_fun E = Some f -> inside E f t
}.

Lemma reference_is E t x : agrees E t -> reference_variable x t = COk (lookup E x) t.
Proof.
  intros [F V Y _ I]. unfold reference_variable, lookup. rewrite F. destruct (en_fun E) as [f|] eqn:Ef; [|rewrite global_assoc, V; reflexivity].
  destruct (I f eq_refl) as [(base & n & i & args & locals & r & Sy & Ha & Hl & Sc & Op) Nd]. rewrite Sy, opens_find, Op.
  assert (A : option_map (fun p => snd (fst p)) (find (fun p => text_eqb (fst (fst p)) x) (flat base (en_scopes E))) = assoc x (concat (en_scopes E))).
  { rewrite <- (assoc_perm x (concat (rev (en_scopes E)))).
    - rewrite <- (flat_names base). unfold assoc. clear. induction (flat base (en_scopes E)) as [|p l IH]; auto. cbn. destruct (text_eqb (fst (fst p)) x); auto.
    - eapply Permutation_NoDup; [|exact Nd]. apply Permutation_map, Permutation_sym, concat_rev.
    - apply concat_rev. }
  rewrite A. destruct (assoc x (concat (en_scopes E))) as [j|]; [reflexivity|]. rewrite position_params, Ha. 
  destruct (position x (en_params E)); [reflexivity|]. rewrite global_assoc, V. reflexivity.
Qed.

(** Steps that do not touch what names mean *)
Record still (t t' : tbl) : Prop := {
  sl_func : tb_func t' = tb_func t;
  sl_scope : tb_scope t' = tb_scope t;
  sl_values : values t' = values t;
  sl_young : young t -> young t';
  sl_unique : young t -> unique t -> unique t';
  sl_good : forall w, good w t -> good w t';
  sl_at : forall id y, sym_at t id = Some y -> sym_at t' id = Some y
}.
Lemma still_refl t : still t t.
Proof. constructor; auto. Qed.
Lemma still_trans a b c : still a b -> still b c -> still a c.
Proof. intros [A1 A2 A3 A4 Au Ag A5] [B1 B2 B3 B4 Bu Bg B5]. constructor; auto; congruence. Qed.
Lemma still_agrees E t t' : still t t' -> agrees E t -> agrees E t'.
Proof.
  intros [A1 A2 A3 A4 Au Ag A5] [F V Y U I]. constructor; try congruence; auto. intros f Ef. destruct (I f Ef) as [(base & n & i & args & locals & r & Sy & Ha & Hl & Sc & Op) Nd].
  constructor; auto. exists base, n, i, args, locals, r. rewrite A2. auto 10.
Qed.

Lemma values_app t t' y : tb_syms t' = tb_syms t ++ [y] -> values t' = values t ++ (if is_value y then [value y] else []).
Proof. intros E. unfold values. rewrite E, filter_app, map_app. cbn. destruct (is_value y); reflexivity. Qed.
Lemma young_app t t' name b : tb_syms t' = tb_syms t ++ [mkSym (tb_next t) name b] -> tb_next t' = S (tb_next t) -> young t -> young t'.
Proof.
  intros E1 E2 Y. unfold young. rewrite E1, E2. apply Forall_app. split; [eapply Forall_impl; [|exact Y]; cbn; lia|]. repeat constructor. 
Qed.
Lemma sym_at_more t t' y id z : tb_syms t' = tb_syms t ++ [y] -> sym_at t id = Some z -> sym_at t' id = Some z.
Proof. unfold sym_at. intros ->. rewrite find_app. intros ->. reflexivity. Qed.
Lemma unique_app t t' name b : tb_syms t' = tb_syms t ++ [mkSym (tb_next t) name b] -> young t -> unique t -> unique t'.
Proof.
  intros E1 Y U. unfold unique. rewrite E1, map_app. cbn [map sy_id]. rewrite <- (rev_involutive (_ ++ _)), rev_app_distr. apply NoDup_rev. cbn. constructor; [|apply NoDup_rev, U].
  intros I. apply in_rev in I. apply in_map_iff in I as (y & Ey & I). pose proof (proj1 (Forall_forall _ _) Y y I). cbn in *. lia.
Qed.
Lemma new_still t name b : is_value (mkSym 0 name b) = false -> key b = [] -> body_ok None b -> still t (snd (new_sym t name b)).
Proof.
  intros N K B. constructor; auto.
  4:{ apply (qt_good _ _ (new_quiet t name b K B)). }
  3:{ apply unique_app with (name := name) (b := b); reflexivity. }
  - erewrite values_app by reflexivity. unfold is_value in *. cbn [sy_body] in *. rewrite N. apply app_nil_r.
  - apply young_app with (name := name) (b := b); reflexivity.
  - intros id y. eapply sym_at_more. reflexivity.
Qed.
Lemma declare_struct_still name s t id t' : declare_struct name s t = COk id t' -> still t t'.
Proof.
  unfold declare_struct. destruct (if s then _ else _); [intros [= _ <-]; apply still_refl|]. cbn. intros [= _ <-]. apply (new_still t name (SyStruct false [])); try reflexivity. cbn. split; [lia|auto].
Qed.
Lemma tag_from_name_still name t g t' : tag_from_name name t = COk g t' -> still t t'.
Proof.
  unfold tag_from_name. destruct (prim_tag name) as [g0|]; [intros [= _ <-]; apply still_refl|].
  destruct (find _ _); [intros [= _ <-]; apply still_refl|].
  destruct (declare_struct name false t) eqn:E; try discriminate. intros [= _ <-]. eapply declare_struct_still; eauto.
Qed.
Lemma get_nullable_still g t g' t' : get_nullable g t = COk g' t' -> still t t'.
Proof.
  unfold get_nullable. destruct (find _ _); [intros [= _ <-]; apply still_refl|]. destruct (tag_name t g) as [n|]; [|discriminate].
  cbn. intros [= _ <-]. apply (new_still t _ (SyNullable g)); try reflexivity.
Qed.
Lemma intern_still x t i t' : intern x t = COk i t' -> still t t'.
Proof. intros E. pose proof (qt_good _ _ (intern_quiet _ _ _ _ E)) as G. revert E. unfold intern. destruct (Strings.register_string _ _) as [[? ?]| | |]; try discriminate. intros [= _ <-]. constructor; auto. Qed.
Lemma type_still t a g t' : spells_type t a g t' -> still t t'.
Proof.
  intros H. inversion H; subst; [eapply tag_from_name_still; eauto|]. eapply still_trans; [eapply tag_from_name_still; eauto|eapply get_nullable_still; eauto].
Qed.

(** ** Expressions *)
Lemma resolved_app E a b : resolved E (a ++ b) <-> resolved E a /\ resolved E b.
Proof. apply Forall_app. Qed.
Definition means (t : tbl) (l : list (text * option vref)) (t' : tbl) : Prop := (forall E, agrees E t -> resolved E l) /\ still t t'.
Lemma means_nil t t' : still t t' -> means t [] t'.
Proof. split; auto. constructor. Qed.
Lemma means_app t l t1 l' t' : means t l t1 -> means t1 l' t' -> means t (l ++ l') t'.
Proof.
  intros (A & B) (A' & B'). split; [|eapply still_trans; eauto]. intros E G. apply resolved_app. split; auto. apply A'. eapply still_agrees; eauto.
Qed.
Lemma means_still t l t1 t' : means t l t1 -> still t1 t' -> means t l t'.
Proof. intros (A & B) C. split; auto. eapply still_trans; eauto. Qed.
Lemma still_means t l t1 t' : still t t1 -> means t1 l t' -> means t l t'.
Proof. intros A B. apply (means_app t [] t1 l t'); auto. apply means_nil. exact A. Qed.
Lemma spelled_means :
  (forall p T a e T', spells p T a e T' -> means T (ids e) T') /\
  (forall T a es T', spells_args T a es T' -> means T (flat_map ids es) T') /\
  (forall T a ns es T', spells_inits T a ns es T' -> means T (flat_map ids es) T').
Proof.
  apply spells_ind3; intros; cbn [ids flat_map]; rewrite ?app_nil_r; auto; try (apply means_nil; first [apply still_refl|eapply intern_still; eassumption]; fail).
  - eapply means_app; eauto.
  - eapply means_app; [eassumption|]. eapply means_app; eassumption.
  - split; [|unfold reference_variable in *; repeat match goal with H : context [match ?x with _ => _ end] |- _ => destruct x; try discriminate end;
      match goal with H : COk _ _ = COk _ _ |- _ => injection H as _ <-; apply still_refl end].
    intros E G. constructor; [|constructor]. cbn. rewrite (reference_is _ _ _ G) in *. congruence.
  - eapply still_means; [eapply declare_struct_still; eassumption|eassumption].
  - eapply means_still; [eassumption|eapply type_still; eassumption].
  - eapply means_app; eauto.
  - eapply means_app; eauto.
  - eapply means_app; eauto.
  - eapply means_app; eauto.
Qed.
Lemma expr_means n s e s' : parse_expr n s = COk e s' -> means (ps_tbl s) (ids e) (ps_tbl s').
Proof. intros H. apply (so_expr _ (exprs_sound n)) in H as (a & _ & Sp & _). eapply spelled_means; eauto. Qed.
Lemma factor_means n s e s' : parse_factor n s = COk e s' -> means (ps_tbl s) (ids e) (ps_tbl s').
Proof. intros H. apply (so_factor _ (exprs_sound n)) in H as (a & _ & Sp & _). eapply spelled_means; eauto. Qed.
Lemma parse_type_still s g s' : parse_type s = COk g s' -> still (ps_tbl s) (ps_tbl s').
Proof. intros H. apply type_sound in H as (a & _ & T). eapply type_still; eauto. Qed.

(** ** Table operations *)
Lemma put_values t id y b : unique t -> sym_at t id = Some y -> is_value (mkSym id (sy_name y) b) = is_value y ->
  (is_value y = true -> value (mkSym id (sy_name y) b) = value y) -> values (put_body t id b) = values t.
Proof.
  intros U S V W. unfold values, put_body. cbn [set_syms tb_syms].
  assert (X : forall z, In z (tb_syms t) -> sy_id z = id -> z = y) by (intros; eapply sym_at_unique; eauto).
  induction (tb_syms t) as [|z l IH]; auto. cbn [map filter]. assert (IH' := IH ltac:(intros; apply X; [right|]; auto)). clear IH.
  destruct (Nat.eqb_spec (sy_id z) id) as [E|N].
  - pose proof (X z (or_introl eq_refl) E) as ->. rewrite V. destruct (is_value y) eqn:Vy; [|exact IH']. cbn [map]. rewrite IH', (W eq_refl). reflexivity.
  - destruct (is_value z); cbn [map]; rewrite IH'; reflexivity.
Qed.
Lemma put_young t id b : young t -> young (put_body t id b).
Proof.
  intros Y. unfold young, put_body in *. cbn [set_syms tb_syms tb_next]. apply Forall_map. eapply Forall_impl; [|exact Y]. intros y. cbn.
  destruct (Nat.eqb_spec (sy_id y) id); cbn; lia.
Qed.
Lemma put_unique t id b : unique t -> unique (put_body t id b).
Proof.
  intros U. unfold unique, put_body in *. cbn [set_syms tb_syms]. rewrite map_map. erewrite map_ext; [exact U|]. intros y. cbn. destruct (Nat.eqb_spec (sy_id y) id); auto.
Qed.

Lemma agrees_open E t : agrees E t -> agrees (enter E) (open_scope t).
Proof.
  intros [F V Y U I]. constructor; auto. intros f Ef. destruct (I f Ef) as [(base & n & i & args & locals & r & Sy & Ha & Hl & Sc & Op) Nd].
  constructor; auto. exists base, n, i, args, locals, r. cbn. rewrite app_nil_r. repeat (split; [assumption|]). split; [lia|assumption].
Qed.
Lemma agrees_close E t u t' : agrees E t -> (en_fun E <> None -> en_scopes E <> []) -> close_scope t = COk u t' -> agrees (leave E) t'.
Proof.
  intros [F V Y U I] N. unfold close_scope. rewrite F. destruct (en_fun E) as [f|] eqn:Ef.
  - destruct (I f eq_refl) as [(base & n & i & args & locals & r & Sy & Ha & Hl & Sc & Op) Nd]. rewrite Sy. intros [= _ <-].
    destruct (en_scopes E) as [|sc rest] eqn:Es; [destruct N; [discriminate|reflexivity]|].
    constructor; auto.
    + cbn. rewrite F. auto.
    + transitivity (values (put_body t f (SyFunc i args (map (end_scope (tb_scope t)) locals) r))); [reflexivity|]. erewrite put_values; eauto.
    + apply put_young. exact Y.
    + apply put_unique. exact U.
    + cbn [en_fun leave]. rewrite Ef. intros f' [= <-]. constructor.
      * exists base, n, i, args, (map (end_scope (tb_scope t)) locals), r. split.
        { transitivity (sym_at (put_body t f (SyFunc i args (map (end_scope (tb_scope t)) locals) r)) f); [reflexivity|]. rewrite (sym_at_put _ _ _ _ _ Sy), Nat.eqb_refl. reflexivity. }
        split; [exact Ha|]. cbn [leave en_count en_scopes]. rewrite Es. cbn [tl]. split; [rewrite map_length; exact Hl|].
        cbn [set_scope tb_scope put_body set_syms]. cbn [length] in Sc. split; [lia|]. rewrite opens_end, Op. replace (tb_scope t) with (base + S (length rest)) by lia. apply flat_pop.
      * cbn [leave en_scopes]. rewrite Es. cbn [tl concat] in *. rewrite map_app in Nd. clear -Nd. induction (map fst sc) as [|a l IH]; auto. apply IH. inversion Nd; auto.
  - intros [= _ <-]. constructor; auto; cbn; [rewrite F; auto|]. rewrite Ef. discriminate.
Qed.

Lemma flat_add base sc r p : flat base ((sc ++ [p]) :: r) = flat base (sc :: r) ++ [(p, base + S (length r))].
Proof. cbn [flat length]. rewrite map_app, app_assoc. reflexivity. Qed.

Lemma agrees_local E t x r t' f : agrees E t -> en_fun E = Some f -> en_scopes E <> [] -> declare_local x t = COk r t' ->
  r = RLocal f (en_count E) /\ assoc x (concat (en_scopes E)) = None /\ agrees (add_local E x) t'.
Proof.
  intros G Ef N. pose proof (reference_is E t x G) as R. destruct G as [F V Y U I]. unfold declare_local. rewrite F, Ef.
  destruct (I f Ef) as [(base & n & i & args & locals & rt & Sy & Ha & Hl & Sc & Op) Nd]. rewrite Sy.
  unfold reference_variable in R. rewrite F, Ef, Sy in R. unfold lookup in R. rewrite Ef in R.
  destruct (find_index (open_named x) locals 0) as [j|] eqn:Fi; [discriminate|]. intros [= <- <-].
  assert (An : assoc x (concat (en_scopes E)) = None).
  { destruct (assoc x (concat (en_scopes E))) as [j|] eqn:A; auto. destruct (find_index (named x) args 0); [discriminate R|]. injection R as R. 
    exfalso. unfold global_ref in R. destruct (find _ _) as [[? ? []]|]; cbn in R; discriminate R. }
  rewrite Hl. split; [reflexivity|]. split; [exact An|]. destruct (en_scopes E) as [|sc rest] eqn:Es; [contradiction|].
  constructor.
  - cbn. exact F.
  - erewrite put_values; eauto.
  - apply put_young; auto.
  - apply put_unique; auto.
  - cbn [add_local en_fun]. rewrite Ef. intros f' [= <-]. constructor.
    + do 6 eexists. split; [rewrite (sym_at_put _ _ _ _ _ Sy), Nat.eqb_refl; reflexivity|]. split; [exact Ha|]. cbn [add_local en_count en_scopes]. rewrite Es.
      split; [rewrite app_length; cbn; lia|]. cbn [put_body set_syms tb_scope]. split; [exact Sc|]. rewrite opens_app. cbn [opens lv_ended lv_name lv_scope]. 
      rewrite flat_add, Op, Hl, Sc. reflexivity.
    + cbn [add_local en_scopes]. rewrite Es. cbn [concat] in *. rewrite <- app_assoc. cbn [app]. rewrite map_app in Nd |- *. cbn [map fst].
      apply NoDup_Add with (a := x) (l := map fst sc ++ map fst (concat rest)); [apply Add_app|]. split; [exact Nd|].
      apply assoc_none in An. rewrite map_app in An. exact An.
Qed.

Lemma values_ref t : young t -> ~ In (RGlobal (tb_next t)) (map snd (values t)) /\ ~ In (RConst (tb_next t)) (map snd (values t)).
Proof.
  intros Y. unfold values. rewrite map_map. split; intros I; apply in_map_iff in I as (y & E & I); apply filter_In in I as (I & _);
    pose proof (proj1 (Forall_forall _ _) Y y I); unfold value, value_ref in E; destruct y as [i n []]; cbn in *; try discriminate E; injection E as ->; lia.
Qed.
Lemma agrees_value E t t' x b : agrees E t -> tb_syms t' = tb_syms t ++ [mkSym (tb_next t) x b] -> tb_next t' = S (tb_next t) -> tb_func t' = tb_func t -> tb_scope t' = tb_scope t ->
  is_value (mkSym (tb_next t) x b) = true -> agrees (add_global E x (value_ref (mkSym (tb_next t) x b))) t'.
Proof.
  intros [F V Y U I] E1 E2 E3 E4 Iv. constructor.
  - rewrite E3. exact F.
  - rewrite (values_app _ _ _ E1), Iv, V. reflexivity.
  - eapply young_app; eauto.
  - eapply unique_app; eauto.
  - intros f Ef. destruct (I f Ef) as [(base & n & i & args & locals & r & Sy & Ha & Hl & Sc & Op) Nd]. constructor; auto.
    exists base, n, i, args, locals, r. rewrite E4. split; [eapply sym_at_more; eauto|auto].
Qed.
Lemma agrees_global E t x r t' : agrees E t -> en_fun E = None -> declare_global x t = COk r t' ->
  exists id, r = RGlobal id /\ assoc x (en_globals E) = None /\ ~ In (RGlobal id) (map snd (en_globals E)) /\ agrees (add_global E x (RGlobal id)) t'.
Proof.
  intros G Ef. unfold declare_global, cbind. rewrite (reference_is E t x G). unfold lookup. rewrite Ef. intros H.
  assert (An : assoc x (en_globals E) = None).
  { destruct (assoc x (en_globals E)) as [v|] eqn:A; auto. exfalso. rewrite <- (ag_values _ _ G), <- global_assoc in A. unfold global_ref in A.
    destruct (find _ _) as [[? ? []]|]; cbn in A; try discriminate A; injection A as <-; discriminate H. }
  rewrite An in H. cbn in H. injection H as <- <-. exists (tb_next t). split; auto. split; auto. split.
  - rewrite <- (ag_values _ _ G). apply values_ref, G.
  - apply (agrees_value E t _ x (SyGlobal (tb_nglob t) false None)); auto.
Qed.
Lemma agrees_const E t x c u t' : agrees E t -> declare_const x c t = COk u t' ->
  exists id, lookup E x = None /\ ~ In (RConst id) (map snd (en_globals E)) /\ agrees (add_global E x (RConst id)) t'.
Proof.
  intros G. unfold declare_const, cbind. rewrite (reference_is E t x G). destruct (lookup E x); [discriminate|]. cbn. intros [= _ <-].
  exists (tb_next t). split; auto. split; [rewrite <- (ag_values _ _ G); apply values_ref, G|]. apply (agrees_value E t _ x (SyConst c)); auto.
Qed.
Lemma opens_update l : forall i k v v', nth_error l k = Some v -> lv_name v' = lv_name v -> lv_scope v' = lv_scope v -> lv_ended v' = lv_ended v ->
  opens i (update l k v') = opens i l.
Proof.
  induction l as [|w l IH]; intros i [|k] v v' E A B C; try discriminate; cbn in *.
  - injection E as ->. rewrite A, B, C. reflexivity.
  - pose proof (IH (S i) k v v' E A B C) as X. destruct (lv_ended w); [exact X|]. f_equal. exact X.
Qed.
Lemma map_update {A B} (h : A -> B) l : forall k v v', nth_error l k = Some v -> h v' = h v -> map h (update l k v') = map h l.
Proof.
  induction l as [|w l IH]; intros [|k] v v' E H; try discriminate; cbn in *; [injection E as ->; congruence|]. f_equal. exact (IH k v v' E H).
Qed.
(** rewriting the current function or a variable without changing names *)
Lemma agrees_put E t id y b : agrees E t -> sym_at t id = Some y -> is_value (mkSym id (sy_name y) b) = is_value y ->
  (forall i args locals r, sy_body y = SyFunc i args locals r -> exists i' args' locals' r', b = SyFunc i' args' locals' r' /\ map lv_name args' = map lv_name args /\ length locals' = length locals /\ opens 0 locals' = opens 0 locals) ->
  (is_value y = true -> value (mkSym id (sy_name y) b) = value y) -> agrees E (put_body t id b).
Proof.
  intros [F V Y U I] S Iv Fn W. constructor; auto.
  - erewrite put_values; eauto.
  - apply put_young; auto.
  - apply put_unique; auto.
  - intros f Ef. destruct (I f Ef) as [(base & n & i & args & locals & r & Sy & Ha & Hl & Sc & Op) Nd]. constructor; auto.
    destruct (Nat.eq_dec f id) as [->|N].
    + rewrite S in Sy. injection Sy as ->. destruct (Fn _ _ _ _ eq_refl) as (i' & args' & locals' & r' & -> & A & B & C).
      do 6 eexists. split; [rewrite (sym_at_put _ _ _ _ _ S), Nat.eqb_refl; reflexivity|]. rewrite A, B, C. eauto.
    + exists base, n, i, args, locals, r. split; [|auto]. rewrite (sym_at_put _ _ _ _ _ S). apply Nat.eqb_neq in N. rewrite N. exact Sy.
Qed.
Lemma agrees_tag E t r g u t' : agrees E t -> set_var_tag r g t = COk u t' -> agrees E t'.
Proof.
  intros G. unfold set_var_tag. destruct r as [id|id|f i|f i]; cbn [put_var]; try discriminate.
  - destruct (sym_at t id) as [[? n []]|] eqn:S; try discriminate. intros [= _ <-]. eapply agrees_put; eauto; cbn; try discriminate.
    intros _. unfold value, value_ref. cbn. apply sym_at_in in S as (_ & E0). cbn in E0. congruence.
  - destruct (sym_at t f) as [[? n []]|] eqn:S; try discriminate. destruct (nth_error locals i) as [v|] eqn:Nv; try discriminate. intros [= _ <-].
    eapply agrees_put; eauto; cbn; try discriminate. intros ? ? ? ? [= <- <- <- <-]. do 4 eexists. split; [reflexivity|]. split; auto. rewrite update_length. split; auto.
    eapply opens_update; eauto; destruct v; reflexivity.
  - destruct (sym_at t f) as [[? n []]|] eqn:S; try discriminate. destruct (nth_error args i) as [v|] eqn:Nv; try discriminate. intros [= _ <-].
    eapply agrees_put; eauto; cbn; try discriminate. intros ? ? ? ? [= <- <- <- <-]. do 4 eexists. split; [reflexivity|]. split; auto.
    eapply map_update; eauto.
Qed.

(** ** Statements *)
Definition keeps (t t' : tbl) : Prop := forall f nm, args_of t f = Some nm -> args_of t' f = Some nm.
Lemma keeps_trans a b c : keeps a b -> keeps b c -> keeps a c.
Proof. intros A B f nm H. auto. Qed.
Lemma still_keeps t t' : still t t' -> keeps t t'.
Proof. intros S f nm. unfold args_of. destruct (sym_at t f) as [y|] eqn:E; [|discriminate]. rewrite (sl_at _ _ S _ _ E). auto. Qed.
Lemma grew_keeps t t' l : grewx None t t' l -> tb_func t = None -> good full t -> keeps t t'.
Proof.
  intros G F Gd f nm. unfold args_of. destruct (sym_at t f) as [y|] eqn:E; [|discriminate]. destruct y as [i n b]. destruct b; try discriminate. intros [= <-].
  destruct (gr_old _ _ _ G Gd f _ E) as (y' & E' & Er); try congruence; [reflexivity|]. rewrite E'. unfold erase in Er. destruct y' as [i' n' b']. cbn in Er. injection Er as _ _ Eb.
  destruct b'; cbn in Eb; try discriminate. injection Eb as _ Ea _ _. f_equal. 
  assert (X : forall l : list lvar, map lv_name l = map lv_name (map erase_var l)) by (intros; rewrite map_map; reflexivity).
  rewrite (X args0), Ea, <- X. reflexivity.
Qed.

Section Statements.
Variable params : nat -> list text.
Definition knows (t : tbl) : Prop := forall f nm, args_of t f = Some nm -> params f = nm.
Lemma knows_back t t' : keeps t t' -> knows t' -> knows t.
Proof. intros K H f nm E. apply H, K, E. Qed.

Definition frame (E E' : env) : Prop := en_fun E' = en_fun E /\ en_params E' = en_params E /\ length (en_scopes E') = length (en_scopes E) /\ (en_fun E = None -> en_count E' = en_count E).
Lemma frame_refl E : frame E E.
Proof. repeat split. Qed.
Lemma frame_trans a b c : frame a b -> frame b c -> frame a c.
Proof. intros (A & B & C & D) (A' & B' & C' & D'). repeat split; try congruence. intros N. rewrite D', D; congruence. Qed.
Definition has_scope (E : env) : Prop := en_fun E <> None -> en_scopes E <> [].
Lemma frame_has E E' : frame E E' -> has_scope E -> has_scope E'.
Proof. intros (A & B & C & _) H N X. rewrite X in C. apply H; [congruence|]. destruct (en_scopes E); [auto|discriminate]. Qed.
Definition outer (E : env) (t t' : tbl) : Prop := en_fun E = None -> good full t /\ knows t'.

Definition stmt_ok (n : nat) : Prop := forall s st s' E, parse_stmt n s = COk st s' -> agrees E (ps_tbl s) -> has_scope E -> outer E (ps_tbl s) (ps_tbl s') ->
  exists E', scoped params E st E' /\ agrees E' (ps_tbl s') /\ frame E E'.
Definition block_ok (n : nat) : Prop := forall s ss s' E, parse_block n s = COk ss s' -> agrees E (ps_tbl s) -> has_scope E -> outer E (ps_tbl s) (ps_tbl s') ->
  exists E', scoped_all params E ss E' /\ agrees E' (ps_tbl s') /\ frame E E'.

Lemma stmt_grew n s st s' E : parse_stmt n s = COk st s' -> agrees E (ps_tbl s) -> en_fun E = None -> good full (ps_tbl s) ->
  good full (ps_tbl s') /\ keeps (ps_tbl s) (ps_tbl s').
Proof.
  intros H A N G. assert (F : tb_func (ps_tbl s) = None) by (rewrite (ag_func _ _ A); exact N). destruct (stmts_inv n) as (X & _). destruct (X None _ _ _ F H) as (Gr & _).
  split; [apply (gr_good _ _ _ Gr G)|eapply grew_keeps; eauto].
Qed.
Lemma block_grew n s st s' E : parse_block n s = COk st s' -> agrees E (ps_tbl s) -> en_fun E = None -> good full (ps_tbl s) ->
  good full (ps_tbl s') /\ keeps (ps_tbl s) (ps_tbl s').
Proof.
  intros H A N G. assert (F : tb_func (ps_tbl s) = None) by (rewrite (ag_func _ _ A); exact N). destruct (stmts_inv n) as (_ & X). destruct (X None _ _ _ F H) as (Gr & _).
  split; [apply (gr_good _ _ _ Gr G)|eapply grew_keeps; eauto].
Qed.

Lemma means_at t l t' E : means t l t' -> agrees E t -> resolved E l /\ agrees E t' /\ (forall w, good w t -> good w t') /\ keeps t t'.
Proof. intros (A & B) G. split; auto. split; [eapply still_agrees; eauto|]. split; [apply (sl_good _ _ B)|apply still_keeps; auto]. Qed.

Lemma simple_scoped n s st s' E : parse_simple n s = COk st s' -> agrees E (ps_tbl s) -> has_scope E ->
  exists E', scoped params E st E' /\ agrees E' (ps_tbl s') /\ frame E E'.
Proof.
  intros H A Hs. unfold parse_simple in H. apply bind_ok in H as (l0 & s0 & E0 & H). injection E0 as <- <-.
  apply bind_ok in H as (lhs & s1 & E1 & H). pose proof (factor_means _ _ _ _ E1) as M1. destruct (means_at _ _ _ _ M1 A) as (R1 & A1 & _).
  assert (W : (op <- last_tok ;;
      line <- the_line ;;
      ' (lhs', op') <-
        (if tok_eqb op DECLARE || tok_eqb op COLON then
           match lhs with
           | EId name _ =>
               tb <- the_tbl ;;
               r <- on_tbl (match tb_func tb with
                            | Some _ => declare_local name
                            | None => declare_global name end) ;;
               if tok_eqb op COLON then
                 next_token ;;;
                 g <- parse_type ;;
                 on_tbl (set_var_tag r g) ;;;
                 expect EQUAL ;;;
                 cret (EId name (Some r), EQUAL)
               else cret (EId name (Some r), op)
           | _ => cfail
           end
         else cret (lhs, op)) ;;
      match prec_of op' with
      | Some _ => cfail
      | None =>
          next_token ;;;
          rhs <- parse_expr n ;;
          (if tok_eqb op' DECLARECONST then
             match lhs' with
             | EId name _ =>
                 match const_of rhs with
                 | Some c => on_tbl (declare_const name c)
                 | None => cfail
                 end
             | _ => cfail
             end
           else cret tt) ;;;
          cret (SAsg line op' lhs' rhs)
      end) s1 = COk st s' -> exists E', scoped params E st E' /\ agrees E' (ps_tbl s') /\ frame E E').
  2:{ destruct lhs; try exact (W H). injection H as <- <-. exists E. split; [constructor; exact R1|]. split; [exact A1|apply frame_refl]. }
  clear H. intros H. apply bind_ok in H as (op & s2 & E2 & H). injection E2 as <- <-. apply bind_ok in H as (line & s2 & E2 & H). injection E2 as <- <-.
  apply bind_ok in H as ((lhs' & op') & s3 & E3 & H). set (op := tk (ps_tok s1)) in *.
  destruct (tok_eqb op DECLARE || tok_eqb op COLON) eqn:Dc.
  - destruct lhs; try discriminate E3. apply bind_ok in E3 as (tb & s4 & E4 & E3). unfold the_tbl in E4. apply on_tbl_ok in E4 as T4. injection T4 as <- T4.
    assert (s4 = s1) by (unfold on_tbl, cget in E4; injection E4 as <-; destruct s1; reflexivity). subst s4. clear E4 T4.
    apply bind_ok in E3 as (rf & s5 & E5 & E3). apply on_tbl_ok in E5 as T5.
    assert (Typ : exists op2, (op2 = DECLARE \/ op2 = EQUAL) /\ lhs' = EId name (Some rf) /\ op' = op2 /\ forall E0, agrees E0 (ps_tbl s5) -> agrees E0 (ps_tbl s3)).
    { destruct (tok_eqb op COLON) eqn:Oc.
      - apply bind_ok in E3 as (u & s6 & E6 & E3). apply next_ok in E6 as (_ & T6). apply bind_ok in E3 as (g & s7 & E7 & E3). apply parse_type_still in E7.
        apply bind_ok in E3 as (u2 & s8 & E8 & E3). apply on_tbl_ok in E8. apply bind_ok in E3 as (u3 & s9 & E9 & E3). apply expect_ok in E9 as (_ & ->). injection E3 as <- <- <-.
        exists EQUAL. split; auto. split; auto. split; auto. intros E0 A0. eapply agrees_tag; [|exact E8]. eapply still_agrees; [exact E7|]. rewrite T6. exact A0.
      - injection E3 as <- <- <-. exists op. apply orb_true_iff in Dc. split; [left; apply tok_eqb_eq; intuition congruence|]. auto. }
    destruct Typ as (op2 & Ho & -> & -> & Tr).
    assert (Hn : prec_of op2 = None) by (destruct Ho as [->| ->]; reflexivity). rewrite Hn in H.
    apply bind_ok in H as (u & s6 & E6 & H). apply next_ok in E6 as (_ & T6). apply bind_ok in H as (rhs & s7 & E7 & H). apply expr_means in E7.
    assert (Hd : tok_eqb op2 DECLARECONST = false) by (destruct Ho as [->| ->]; reflexivity). rewrite Hd in H. apply bind_ok in H as (u2 & s8 & E8 & H). injection E8 as _ <-. injection H as <- <-.
    destruct (en_fun E) as [f|] eqn:Ef.
    + rewrite (ag_func _ _ A1), Ef in T5. destruct (agrees_local _ _ _ _ _ f A1 Ef (Hs ltac:(congruence)) T5) as (-> & An & A5).
      exists (add_local E name). apply Tr in A5. rewrite <- T6 in A5. destruct (means_at _ _ _ _ E7 A5) as (R7 & A7 & _). split; [eapply sc_local; eauto|]. split; auto.
      repeat split; [cbn; destruct (en_scopes E); auto|congruence].
    + rewrite (ag_func _ _ A1), Ef in T5. destruct (agrees_global _ _ _ _ _ A1 Ef T5) as (id & -> & An & Fr & A5).
      exists (add_global E name (RGlobal id)). apply Tr in A5. rewrite <- T6 in A5. destruct (means_at _ _ _ _ E7 A5) as (R7 & A7 & _). split; [eapply sc_global; eauto|]. split; auto. repeat split.
  - injection E3 as <- <- <-. apply orb_false_iff in Dc as (D1 & D2). destruct (prec_of op) eqn:Po; [discriminate H|].
    apply bind_ok in H as (u & s6 & E6 & H). apply next_ok in E6 as (_ & T6). apply bind_ok in H as (rhs & s7 & E7 & H). apply expr_means in E7. rewrite T6 in E7.
    destruct (means_at _ _ _ _ E7 A1) as (R7 & A7 & _). apply bind_ok in H as (u2 & s8 & E8 & H). injection H as <- <-.
    destruct (tok_eqb op DECLARECONST) eqn:Dk.
    + apply tok_eqb_eq in Dk. rewrite Dk. destruct lhs; try discriminate E8. destruct (const_of rhs) as [c|] eqn:Cr; [|discriminate E8]. apply on_tbl_ok in E8.
      destruct (agrees_const _ _ _ _ _ _ A7 E8) as (id & Lk & Fr & A8). exists (add_global E name (RConst id)). split; [|split; [exact A8|repeat split]].
      inversion R1 as [|? ? Rn _]; subst. cbn in Rn. rewrite Lk in Rn. subst r. apply sc_const; auto. congruence.
    + injection E8 as _ <-. exists E. split; [|split; [exact A7|apply frame_refl]]. apply sc_assign.
      * intros X. rewrite X in D1. discriminate D1.
      * intros X. rewrite X in Dk. discriminate Dk.
      * apply resolved_app. auto.
Qed.

Lemma params_still : forall n s ps s', parse_params n s = COk ps s' -> still (ps_tbl s) (ps_tbl s').
Proof.
  induction n as [|n IH]; [discriminate|]. intros s ps s' H. cbn [parse_params] in H. apply bind_ok in H as (t & s1 & E1 & H). apply last_ok in E1 as (-> & ->).
  destruct (tok_eqb _ CLOSEPAREN); [injection H as <- <-; apply still_refl|].
  apply bind_ok in H as (u2 & s2 & E2 & H). apply expect_ok in E2 as (_ & ->). apply bind_ok in H as (nm & s3 & E3 & H). apply lexeme_ok in E3 as (_ & ->).
  apply bind_ok in H as (u4 & s4 & E4 & H). apply next_ok in E4 as (_ & T4). apply bind_ok in H as (u5 & s5 & E5 & H). apply expect_ok in E5 as (_ & ->).
  apply bind_ok in H as (u6 & s6 & E6 & H). apply next_ok in E6 as (_ & T6). apply bind_ok in H as (g & s7 & E7 & H). apply parse_type_still in E7.
  apply bind_ok in H as (t' & s8 & E8 & H). apply last_ok in E8 as (-> & ->). apply bind_ok in H as (u9 & s9 & E9 & H).
  assert (T9 : ps_tbl s9 = ps_tbl s7).
  { destruct (tok_eqb _ CLOSEPAREN); [injection E9 as _ <-; reflexivity|]. destruct (tok_eqb _ COMMA); [|discriminate]. apply next_ok in E9. tauto. }
  apply bind_ok in H as (qs & s10 & E10 & H). injection H as <- <-. apply IH in E10. rewrite T9 in E10. rewrite T6, T4 in E7. eapply still_trans; eauto.
Qed.

Lemma position_none x l : position x l = None <-> ~ In x l.
Proof.
  induction l as [|y l IH]; cbn; [tauto|]. destruct (text_eqb y x) eqn:E.
  - apply text_eqb_eq in E. subst. split; [discriminate|]. intros H. destruct H. auto.
  - destruct (position x l); cbn; split; try discriminate; auto.
    + intros H. apply Decidable.not_or in H as (_ & H). apply IH in H. discriminate.
    + intros _ [->|I]; [rewrite text_eqb_refl in E; discriminate|]. apply IH in I; auto.
Qed.
Lemma agrees_argument f qs G t k x g u t' : agrees (mkEnv (Some f) qs [] 0 G) t -> declare_argument k x g t = COk u t' ->
  ~ In x qs /\ agrees (mkEnv (Some f) (qs ++ [x]) [] 0 G) t'.
Proof.
  intros [F V Y U I]. cbn in F, V. unfold declare_argument. rewrite F. destruct (I f eq_refl) as [(base & n & i & args & locals & r & Sy & Ha & Hl & Sc & Op) Nd]. rewrite Sy.
  rewrite position_params. cbn in Ha, Hl, Sc, Op. rewrite Ha. destruct (position x qs) eqn:P; [discriminate|]. cbn [option_map]. intros [= _ <-].
  split; [apply position_none; exact P|]. constructor; auto.
  - erewrite put_values; eauto.
  - apply put_young; auto.
  - apply put_unique; auto.
  - intros f' [= <-]. constructor; auto. do 6 eexists. split; [rewrite (sym_at_put _ _ _ _ _ Sy), Nat.eqb_refl; reflexivity|]. rewrite map_app, Ha. split; [reflexivity|].
    split; [exact Hl|]. split; [exact Sc|exact Op].
Qed.
Lemma params_agree f G k ps : forall qs s u s', agrees (mkEnv (Some f) qs [] 0 G) (ps_tbl s) -> NoDup qs -> declare_params k ps s = COk u s' ->
  NoDup (qs ++ map fst ps) /\ agrees (mkEnv (Some f) (qs ++ map fst ps) [] 0 G) (ps_tbl s').
Proof.
  induction ps as [|(x & g) ps IH]; intros qs s u s' A N H; cbn [declare_params] in H.
  - injection H as _ <-. rewrite app_nil_r. auto.
  - apply bind_ok in H as (u1 & s1 & E1 & H). apply on_tbl_ok in E1. destruct (agrees_argument _ _ _ _ _ _ _ _ _ A E1) as (Ni & A1).
    cbn [map fst]. replace (qs ++ x :: map fst ps) with ((qs ++ [x]) ++ map fst ps) by (rewrite <- app_assoc; reflexivity). eapply IH; eauto.
    apply NoDup_Add with (a := x) (l := qs); [|auto]. rewrite <- (app_nil_r qs) at 1. apply Add_app.
Qed.
Lemma agrees_function E t x f t' : agrees E t -> declare_function x t = COk f t' ->
  agrees (mkEnv (Some f) [] [] 0 (en_globals E)) (set_func t' (Some f)).
Proof.
  intros [F V Y U I]. unfold declare_function. cbn. intros [= <- <-]. constructor; cbn [en_fun en_globals en_params en_scopes en_count].
  - reflexivity.
  - erewrite (values_app t) by reflexivity. cbn. rewrite app_nil_r. exact V.
  - apply (young_app t _ x (SyFunc (tb_nfun t) [] [] None)); auto.
  - apply (unique_app t _ x (SyFunc (tb_nfun t) [] [] None)); auto.
  - intros f [= <-]. constructor; [|constructor]. exists (tb_scope t), x, (tb_nfun t), [], [], None. split; [|repeat split; cbn; lia].
    unfold sym_at. cbn. rewrite find_app. destruct (find (fun y => sy_id y =? tb_next t) (tb_syms t)) as [y|] eqn:Fd.
    + apply find_some in Fd as (Iy & Ey). apply Nat.eqb_eq in Ey. pose proof (proj1 (Forall_forall _ _) Y y Iy). cbn in *. lia.
    + cbn. rewrite Nat.eqb_refl. reflexivity.
Qed.
Lemma agrees_ret E t f g u t' : agrees E t -> set_ret f g t = COk u t' -> agrees E t'.
Proof.
  intros G. unfold set_ret. destruct (sym_at t f) as [[? n []]|] eqn:S; try discriminate. intros [= _ <-].
  eapply agrees_put; eauto; cbn; try discriminate. intros ? ? ? ? [= <- <- <- <-]. do 4 eexists. split; [reflexivity|]. auto.
Qed.
Lemma agrees_none E E2 t : agrees E2 t -> en_fun E = None -> agrees (with_globals E E2) (set_func t None).
Proof. intros [F V Y U I] N. constructor; auto. cbn. rewrite N. discriminate. Qed.

Lemma leave_frame E E' : frame (enter E) E' -> frame E (leave E').
Proof. intros (A & B & C & D). cbn in *. repeat split; auto. cbn. destruct (en_scopes E'); cbn in *; lia. Qed.
Lemma enter_has E : has_scope (enter E).
Proof. intros _ X. discriminate X. Qed.
Lemma tbl_here s tb s1 : the_tbl s = COk tb s1 -> tb = ps_tbl s /\ s1 = s.
Proof. unfold the_tbl, on_tbl, cget. intros [= <- <-]. destruct s; auto. Qed.
Lemma mod_here f s u s1 : mod_tbl f s = COk u s1 -> ps_tbl s1 = f (ps_tbl s).
Proof. unfold mod_tbl. intros H. apply on_tbl_ok in H. congruence. Qed.
Lemma keeps_scope t k : keeps t (set_scope t k).
Proof. intros f nm H. exact H. Qed.
Lemma close_keeps t u t' : tb_func t = None -> close_scope t = COk u t' -> keeps t t' /\ (good full t -> good full t').
Proof. unfold close_scope. intros ->. intros [= _ <-]. split; [apply keeps_scope|]. intros [A B C D F]. constructor; auto. Qed.
Lemma good_open t : good full t -> good full (open_scope t).
Proof. intros [A B C D F]. constructor; auto. Qed.
Lemma use_still n l s st s' : parse_use n l s = COk st s' -> ps_tbl s' = ps_tbl s /\ exists m args y, st = SUse l m args y.
Proof.
  unfold parse_use. intros H. apply bind_ok in H as (u1 & s1 & E1 & H). apply get_ok in E1 as (_ & T1 & _). apply bind_ok in H as (m & s2 & E2 & H). apply lexeme_ok in E2 as (_ & ->).
  apply bind_ok in H as (u3 & s3 & E3 & H). apply get_ok in E3 as (_ & T3 & _). apply bind_ok in H as (u4 & s4 & E4 & H). apply next_ok in E4 as (_ & T4).
  apply bind_ok in H as (args & s5 & E5 & H).
  assert (T5 : forall n s a s', parse_use_args n s = COk a s' -> ps_tbl s' = ps_tbl s).
  { clear. induction n as [|n IH]; [discriminate|]. intros s a s' H. cbn [parse_use_args] in H. apply bind_ok in H as (t & s1 & E1 & H). apply last_ok in E1 as (-> & ->).
    destruct (tok_eqb _ CLOSEPAREN); [injection H as <- <-; reflexivity|]. apply bind_ok in H as (u2 & s2 & E2 & H). apply expect_ok in E2 as (_ & ->). apply bind_ok in H as (x & s3 & E3 & H). apply lexeme_ok in E3 as (_ & ->).
    apply bind_ok in H as (u4 & s4 & E4 & H). apply next_ok in E4 as (_ & T4). apply bind_ok in H as (t' & s5 & E5 & H). apply last_ok in E5 as (-> & ->). apply bind_ok in H as (u6 & s6 & E6 & H).
    assert (T6 : ps_tbl s6 = ps_tbl s4) by (destruct (tok_eqb _ COMMA); [apply next_ok in E6; tauto|injection E6 as _ <-; reflexivity]).
    apply bind_ok in H as (xs & s7 & E7 & H). injection H as <- <-. apply IH in E7. congruence. }
  apply T5 in E5. clear T5. apply bind_ok in H as (u6 & s6 & E6 & H). apply next_ok in E6 as (_ & T6). apply bind_ok in H as (t & s7 & E7 & H). apply last_ok in E7 as (-> & ->).
  destruct (tok_eqb _ IDENT); [|injection H as <- <-; split; [congruence|eauto]]. apply bind_ok in H as (x & s8 & E8 & H). apply lexeme_ok in E8 as (_ & ->).
  destruct (text_eqb x _); [|injection H as <- <-; split; [congruence|eauto]]. apply bind_ok in H as (u9 & s9 & E9 & H). apply get_ok in E9 as (_ & T9 & _).
  apply bind_ok in H as (y & s10 & E10 & H). apply lexeme_ok in E10 as (_ & ->). apply bind_ok in H as (u11 & s11 & E11 & H). apply next_ok in E11 as (_ & T11). injection H as <- <-. split; [congruence|eauto].
Qed.


(** what the invariants of ParserInv.v give between two tables *)
Definition later (t t' : tbl) : Prop := tb_func t = None -> good full t -> tb_func t' = None /\ good full t' /\ keeps t t'.
Lemma later_trans a b c : later a b -> later b c -> later a c.
Proof. intros A B F G. destruct (A F G) as (F1 & G1 & K1). destruct (B F1 G1) as (F2 & G2 & K2). repeat split; try apply G2; auto. eapply keeps_trans; eauto. Qed.
Lemma later_refl t : later t t.
Proof. intros F G. split; auto. split; auto. intros ? ? X. exact X. Qed.
Lemma later_eq t t' : t' = t -> later t t'.
Proof. intros ->. apply later_refl. Qed.
Lemma later_still t t' : still t t' -> later t t'.
Proof. intros S F G. split; [rewrite (sl_func _ _ S); auto|]. split; [apply (sl_good _ _ S); auto|apply still_keeps; auto]. Qed.
Lemma later_grew t t' l : grewx None t t' l -> later t t'.
Proof. intros Gr F G. split; [rewrite (gr_func _ _ _ Gr); auto|]. split; [apply (gr_good _ _ _ Gr G)|eapply grew_keeps; eauto]. Qed.
Lemma later_stmt n s st s' : parse_stmt n s = COk st s' -> later (ps_tbl s) (ps_tbl s').
Proof. intros H F G. destruct (stmts_inv n) as (X & _). destruct (X None _ _ _ F H) as (Gr & _). exact (later_grew _ _ _ Gr F G). Qed.
Lemma later_block n s st s' : parse_block n s = COk st s' -> later (ps_tbl s) (ps_tbl s').
Proof. intros H F G. destruct (stmts_inv n) as (_ & X). destruct (X None _ _ _ F H) as (Gr & _). exact (later_grew _ _ _ Gr F G). Qed.
Lemma later_open t : later t (open_scope t).
Proof. intros F G. split; auto. split; [apply good_open; auto|apply keeps_scope]. Qed.
Lemma later_close t u t' : close_scope t = COk u t' -> later t t'.
Proof. intros H F G. destruct (close_keeps _ _ _ F H) as (K & G'). split; auto. revert H. unfold close_scope. rewrite F. intros [= _ <-]. exact F. Qed.
Lemma outer_mid E E1 t t1 t2 t' : agrees E t -> outer E t t' -> en_fun E1 = en_fun E -> later t t1 -> later t1 t2 -> later t2 t' -> outer E1 t1 t2.
Proof.
  intros A O En L1 L2 L3 N. rewrite En in N. destruct (O N) as (G & K). assert (F : tb_func t = None) by (rewrite (ag_func _ _ A); exact N).
  destruct (L1 F G) as (F1 & G1 & _). destruct (L2 F1 G1) as (F2 & G2 & _). destruct (L3 F2 G2) as (_ & _ & K3). split; auto. eapply knows_back; eauto.
Qed.
Lemma outer_back E t t' t2 : agrees E t -> outer E t t2 -> later t t' -> later t' t2 -> outer E t t'.
Proof. intros A O L1 L2. eapply outer_mid; eauto. apply later_refl. Qed.

Lemma stmts_scoped : forall n, stmt_ok n /\ block_ok n.
Proof.
  induction n as [|n [IHs IHb]]; [split; intros ? ? ? ?; discriminate|].
  assert (B : block_ok (S n)).
  { intros s ss s' E H A Hs O. cbn [parse_block] in H. apply bind_ok in H as (t & s1 & E1 & H). apply last_ok in E1 as (-> & ->).
    destruct (tok_eqb _ CLOSECURLY); [injection H as <- <-; exists E; split; [constructor|split; [exact A|apply frame_refl]]|].
    apply bind_ok in H as (st & s2 & E2 & H). apply bind_ok in H as (ss2 & s3 & E3 & H). injection H as <- <-.
    pose proof (later_stmt _ _ _ _ E2) as L2. pose proof (later_block _ _ _ _ E3) as L3.
    destruct (IHs _ _ _ E E2 A Hs) as (E' & Sc & A2 & Fr); [exact (outer_mid _ _ _ _ _ _ A O eq_refl (later_refl _) L2 L3)|].
    destruct (IHb _ _ _ E' E3 A2 (frame_has _ _ Fr Hs)) as (E'' & Sc' & A3 & Fr'); [refine (outer_mid _ _ _ _ _ _ A O _ L2 L3 (later_refl _)); apply Fr|].
    exists E''. split; [econstructor; eauto|]. split; auto. eapply frame_trans; eauto. }
  split; [|exact B]. intros s st s' E H A Hs O.
  cbn [parse_stmt] in H. apply bind_ok in H as (t & s1 & E1 & H). apply last_ok in E1 as (-> & ->).
  destruct (tk (ps_tok s)) eqn:Tk; try exact (simple_scoped _ _ _ _ _ H A Hs); clear Tk B.
  - (* a block *)
    apply bind_ok in H as (l & s1 & E1 & H). injection E1 as _ <-. apply bind_ok in H as (u2 & s2 & E2 & H). apply next_ok in E2 as (_ & T2).
    apply bind_ok in H as (u3 & s3 & E3 & H). apply mod_here in E3. apply bind_ok in H as (ss & s4 & E4 & H). apply bind_ok in H as (u5 & s5 & E5 & H). apply next_ok in E5 as (_ & T5).
    apply bind_ok in H as (u6 & s6 & E6 & H). apply on_tbl_ok in E6. injection H as <- <-. rewrite T5 in E6. rewrite T2 in E3.
    pose proof (agrees_open _ _ A) as A3. rewrite <- E3 in A3.
    destruct (IHb _ _ _ _ E4 A3 (enter_has E)) as (E' & Sc & A4 & Fr).
    { refine (outer_mid _ _ _ _ _ _ A O eq_refl _ (later_block _ _ _ _ E4) (later_close _ _ _ E6)). rewrite E3. apply later_open. }
    exists (leave E'). split; [constructor; exact Sc|]. split; [|apply leave_frame; exact Fr]. eapply agrees_close; eauto. exact (frame_has _ _ Fr (enter_has E)).
  - (* if *)
    apply bind_ok in H as (l & s1 & E1 & H). injection E1 as _ <-. apply bind_ok in H as (u2 & s2 & E2 & H). apply next_ok in E2 as (_ & T2).
    apply bind_ok in H as (c & s3 & E3 & H). apply expr_means in E3. rewrite T2 in E3. destruct (means_at _ _ _ _ E3 A) as (R3 & A3 & _). pose proof (later_still _ _ (proj2 E3)) as L3.
    apply bind_ok in H as (a & s4 & E4 & H). pose proof (later_stmt _ _ _ _ E4) as L4. apply bind_ok in H as (t' & s5 & E5 & H). apply last_ok in E5 as (-> & ->).
    destruct (tok_eqb _ ELSE).
    + apply bind_ok in H as (u6 & s6 & E6 & H). apply next_ok in E6 as (_ & T6). apply bind_ok in H as (b & s7 & E7 & H). injection H as <- <-.
      pose proof (later_stmt _ _ _ _ E7) as L7. rewrite T6 in L7.
      destruct (IHs _ _ _ E E4 A3 Hs) as (E' & Sc & A4 & Fr); [exact (outer_mid _ _ _ _ _ _ A O eq_refl L3 L4 L7)|]. rewrite <- T6 in A4.
      destruct (IHs _ _ _ E' E7 A4 (frame_has _ _ Fr Hs)) as (E'' & Sc' & A7 & Fr').
      { rewrite T6. refine (outer_mid _ _ _ _ _ _ A O _ (later_trans _ _ _ L3 L4) L7 (later_refl _)). apply Fr. }
      exists E''. split; [econstructor; eauto|]. split; auto. eapply frame_trans; eauto.
    + injection H as <- <-. destruct (IHs _ _ _ E E4 A3 Hs) as (E' & Sc & A4 & Fr); [exact (outer_mid _ _ _ _ _ _ A O eq_refl L3 L4 (later_refl _))|].
      exists E'. split; [constructor; auto|]. auto.
  - (* while *)
    apply bind_ok in H as (u2 & s2 & E2 & H). apply next_ok in E2 as (_ & T2). apply bind_ok in H as (l & s1 & E1 & H). injection E1 as _ <-.
    apply bind_ok in H as (c & s3 & E3 & H). apply expr_means in E3. rewrite T2 in E3. destruct (means_at _ _ _ _ E3 A) as (R3 & A3 & _). pose proof (later_still _ _ (proj2 E3)) as L3.
    apply bind_ok in H as (u4 & s4 & E4 & H). apply mod_here in E4. apply bind_ok in H as (body & s5 & E5 & H). apply bind_ok in H as (u6 & s6 & E6 & H). apply on_tbl_ok in E6. injection H as <- <-.
    pose proof (agrees_open _ _ A3) as A4. rewrite <- E4 in A4.
    destruct (IHs _ _ _ _ E5 A4 (enter_has E)) as (E' & Sc & A5 & Fr).
    { refine (outer_mid _ _ _ _ _ _ A O eq_refl (later_trans _ _ _ L3 _) (later_stmt _ _ _ _ E5) (later_close _ _ _ E6)). rewrite E4. apply later_open. }
    exists (leave E'). split; [constructor; auto|]. split; [|apply leave_frame; exact Fr]. eapply agrees_close; eauto. exact (frame_has _ _ Fr (enter_has E)).
  - (* for *)
    apply bind_ok in H as (u2 & s2 & E2 & H). apply next_ok in E2 as (_ & T2). apply bind_ok in H as (l & s1 & E1 & H). injection E1 as _ <-.
    apply bind_ok in H as (u3 & s3 & E3 & H). apply mod_here in E3. rewrite T2 in E3. apply bind_ok in H as (i & s4 & E4 & H).
    apply bind_ok in H as (u5 & s5 & E5 & H). apply expect_ok in E5 as (_ & ->). apply bind_ok in H as (u6 & s6 & E6 & H). apply next_ok in E6 as (_ & T6).
    apply bind_ok in H as (c & s7 & E7 & H). apply expr_means in E7. rewrite T6 in E7. apply bind_ok in H as (u8 & s8 & E8 & H). apply expect_ok in E8 as (_ & ->).
    apply bind_ok in H as (u9 & s9 & E9 & H). apply next_ok in E9 as (_ & T9). apply bind_ok in H as (stp & s10 & E10 & H). apply bind_ok in H as (body & s11 & E11 & H).
    apply bind_ok in H as (u12 & s12 & E12 & H). apply on_tbl_ok in E12. injection H as <- <-.
    assert (L3 : later (ps_tbl s) (ps_tbl s3)) by (rewrite E3; apply later_open). pose proof (later_stmt _ _ _ _ E4) as L4. pose proof (later_still _ _ (proj2 E7)) as L7.
    pose proof (later_stmt _ _ _ _ E10) as L10. rewrite T9 in L10. pose proof (later_stmt _ _ _ _ E11) as L11. pose proof (later_close _ _ _ E12) as L12.
    pose proof (later_trans _ _ _ L11 L12) as L1112. pose proof (later_trans _ _ _ L10 L1112) as L1012. pose proof (later_trans _ _ _ L7 L1012) as L712.
    pose proof (later_trans _ _ _ L3 L4) as L04. pose proof (later_trans _ _ _ L04 L7) as L07. pose proof (later_trans _ _ _ L07 L10) as L010.
    pose proof (agrees_open _ _ A) as A3. rewrite <- E3 in A3.
    destruct (IHs _ _ _ _ E4 A3 (enter_has E)) as (E4' & Sc4 & A4 & Fr4); [exact (outer_mid _ _ _ _ _ _ A O eq_refl L3 L4 L712)|].
    destruct (means_at _ _ _ _ E7 A4) as (R7 & A7 & _). rewrite <- T9 in A7.
    destruct (IHs _ _ _ _ E10 A7 (frame_has _ _ Fr4 (enter_has E))) as (E10' & Sc10 & A10 & Fr10); [rewrite T9; refine (outer_mid _ _ _ _ _ _ A O _ L07 L10 L1112); apply Fr4|].
    pose proof (frame_trans _ _ _ Fr4 Fr10) as Fr40.
    destruct (IHs _ _ _ _ E11 A10 (frame_has _ _ Fr40 (enter_has E))) as (E11' & Sc11 & A11 & Fr11); [refine (outer_mid _ _ _ _ _ _ A O _ L010 L11 L12); apply Fr40|].
    pose proof (frame_trans _ _ _ Fr40 Fr11) as Fr411. exists (leave E11'). split; [econstructor; eauto|]. split; [|apply leave_frame; exact Fr411].
    eapply agrees_close; eauto. exact (frame_has _ _ Fr411 (enter_has E)).
  - (* return *)
    apply bind_ok in H as (tb & s1 & E1 & H). apply tbl_here in E1 as (-> & ->). destruct (tb_func (ps_tbl s)) as [f|] eqn:Tf; [|discriminate].
    apply bind_ok in H as (l & s1 & E1 & H). injection E1 as _ <-. apply bind_ok in H as (u2 & s2 & E2 & H). apply next_ok in E2 as (_ & T2).
    apply bind_ok in H as (t' & s3 & E3 & H). apply last_ok in E3 as (-> & ->). destruct (tok_eqb _ SEMI).
    + apply bind_ok in H as (u4 & s4 & E4 & H). apply next_ok in E4 as (_ & T4). injection H as <- <-. exists E. split; [constructor|]. rewrite T4, T2. split; [exact A|apply frame_refl].
    + apply bind_ok in H as (tb & s3 & E3 & H). apply tbl_here in E3 as (-> & ->). destruct (sym_at (ps_tbl s2) f) as [[? ? []]|]; try discriminate. destruct ret; try discriminate.
      destruct (tag_eq_dec _ _); [discriminate|]. apply bind_ok in H as (e & s3 & E3 & H). injection H as <- <-. apply expr_means in E3. rewrite T2 in E3.
      destruct (means_at _ _ _ _ E3 A) as (R3 & A3 & _). exists E. split; [constructor; exact R3|]. split; [exact A3|apply frame_refl].
  - (* func *)
    apply bind_ok in H as (tb & s1 & E1 & H). apply tbl_here in E1 as (-> & ->). destruct (tb_func (ps_tbl s)) as [f|] eqn:Tf; [discriminate|].
    assert (N : en_fun E = None) by (rewrite <- (ag_func _ _ A); exact Tf). destruct (O N) as (Gd & Kn).
    apply bind_ok in H as (l & s1 & E1 & H). injection E1 as _ <-. apply bind_ok in H as (u2 & s2 & E2 & H). apply get_ok in E2 as (_ & T2 & _).
    apply bind_ok in H as (nm & s3 & E3 & H). apply lexeme_ok in E3 as (_ & ->). apply bind_ok in H as (f & s4 & E4 & H). apply on_tbl_ok in E4. rewrite T2 in E4.
    apply bind_ok in H as (u5 & s5 & E5 & H). apply mod_here in E5. pose proof (agrees_function _ _ _ _ _ A E4) as A5. rewrite <- E5 in A5.
    apply bind_ok in H as (u6 & s6 & E6 & H). apply get_ok in E6 as (_ & T6 & _). apply bind_ok in H as (u7 & s7 & E7 & H). apply next_ok in E7 as (_ & T7).
    apply bind_ok in H as (ps & s8 & E8 & H). apply params_still in E8. rewrite T7, T6 in E8. pose proof (still_agrees _ _ _ E8 A5) as A8.
    apply bind_ok in H as (u9 & s9 & E9 & H). destruct (params_agree _ _ _ _ _ _ _ _ A8 (NoDup_nil _) E9) as (Nd & A9). cbn [app] in Nd, A9.
    apply bind_ok in H as (u10 & s10 & E10 & H). apply next_ok in E10 as (_ & T10). rewrite <- T10 in A9. apply bind_ok in H as (t' & s11 & E11 & H). apply last_ok in E11 as (-> & ->).
    apply bind_ok in H as (u12 & s12 & E12 & H).
    assert (A12 : agrees (mkEnv (Some f) (map fst ps) [] 0 (en_globals E)) (ps_tbl s12)).
    { destruct (tok_eqb _ COLON).
      - apply bind_ok in E12 as (u13 & s13 & E13 & E12). apply next_ok in E13 as (_ & T13). apply bind_ok in E12 as (g & s14 & E14 & E12). apply parse_type_still in E14. rewrite T13 in E14.
        apply on_tbl_ok in E12. eapply agrees_ret; [|exact E12]. eapply still_agrees; eauto.
      - apply on_tbl_ok in E12. eapply agrees_ret; eauto. }
    apply bind_ok in H as (u13 & s13 & E13 & H). apply mod_here in E13. pose proof (agrees_open _ _ A12) as A13. rewrite <- E13 in A13.
    apply bind_ok in H as (body & s14 & E14 & H). apply bind_ok in H as (u15 & s15 & E15 & H). apply on_tbl_ok in E15. apply bind_ok in H as (u16 & s16 & E16 & H). apply mod_here in E16. injection H as <- <-.
    destruct (IHs _ _ _ _ E14 A13 (enter_has _)) as (E' & Sc & A14 & Fr); [intros X; discriminate X|].
    assert (A15 : agrees (leave E') (ps_tbl s15)) by (eapply agrees_close; eauto; exact (frame_has _ _ Fr (enter_has _))).
    assert (Pf : params f = map fst ps).
    { apply Kn. destruct (ag_inside _ _ A15 f) as [(base & n0 & i0 & args & locals & r & Sy & Ha & _) _]; [cbn; rewrite (proj1 Fr); reflexivity|].
      unfold args_of. rewrite E16. change (sym_at (set_func (ps_tbl s15) None) f) with (sym_at (ps_tbl s15) f). rewrite Sy, Ha. cbn [leave en_params]. f_equal. apply Fr. }
    exists (with_globals E E'). split; [|split; [|repeat split]].
    + apply sc_proc; auto; rewrite Pf; auto.
    + rewrite E16. apply (agrees_none E (leave E')); auto.
  - (* break *)
    apply bind_ok in H as (u2 & s2 & E2 & H). apply next_ok in E2 as (_ & T2). apply bind_ok in H as (l & s1 & E1 & H). injection E1 as _ <-. injection H as <- <-.
    exists E. split; [constructor|]. rewrite T2. split; [exact A|apply frame_refl].
  - (* continue *)
    apply bind_ok in H as (l & s1 & E1 & H). injection E1 as _ <-. apply bind_ok in H as (u2 & s2 & E2 & H). apply next_ok in E2 as (_ & T2). injection H as <- <-.
    exists E. split; [constructor|]. rewrite T2. split; [exact A|apply frame_refl].
  - (* use *)
    apply bind_ok in H as (tb & s1 & E1 & H). apply tbl_here in E1 as (-> & ->). destruct (tb_func (ps_tbl s)); [discriminate|]. destruct (tb_scope _ =? 0); [|discriminate].
    apply bind_ok in H as (l & s1 & E1 & H). injection E1 as _ <-. apply use_still in H as (T & m & args & y & ->). exists E. split; [constructor|]. rewrite T. split; [exact A|apply frame_refl].
Qed.

(** ** Structs and programs *)
Lemma fields_agree E id : forall n s u s', parse_fields n id s = COk u s' -> agrees E (ps_tbl s) -> agrees E (ps_tbl s').
Proof.
  induction n as [|n IH]; [discriminate|]. intros s u s' H A. cbn [parse_fields] in H. apply bind_ok in H as (t & s1 & E1 & H). apply last_ok in E1 as (-> & ->).
  destruct (tok_eqb _ CLOSECURLY); [injection H as _ <-; exact A|]. apply bind_ok in H as (u2 & s2 & E2 & H). apply expect_ok in E2 as (_ & ->). apply bind_ok in H as (nm & s3 & E3 & H). apply lexeme_ok in E3 as (_ & ->).
  apply bind_ok in H as (tb & s1 & E1 & H). apply tbl_here in E1 as (-> & ->). destruct (sym_at (ps_tbl s) id) as [[? ? []]|]; try discriminate.
  destruct (255 <=? _); [discriminate|]. destruct (field_index _ _); [discriminate|]. apply bind_ok in H as (u4 & s4 & E4 & H). apply get_ok in E4 as (_ & T4 & _).
  apply bind_ok in H as (u5 & s5 & E5 & H). apply next_ok in E5 as (_ & T5). apply bind_ok in H as (g & s6 & E6 & H). apply parse_type_still in E6. rewrite T5, T4 in E6.
  apply bind_ok in H as (u7 & s7 & E7 & H). apply on_tbl_ok in E7. eapply IH; [exact H|]. pose proof (still_agrees _ _ _ E6 A) as A6.
  destruct (sym_at (ps_tbl s6) id) as [[? ? []]|] eqn:Sy; try discriminate. injection E7 as _ <-. eapply agrees_put; eauto; cbn; discriminate.
Qed.
Lemma struct_agree E n s u s' : parse_struct n s = COk u s' -> agrees E (ps_tbl s) -> agrees E (ps_tbl s') /\ later (ps_tbl s) (ps_tbl s').
Proof.
  intros H A. split; [|intros F G; destruct (struct_inv None n _ _ _ F H) as (Gr & _); exact (later_grew _ _ _ Gr F G)].
  unfold parse_struct in H. apply bind_ok in H as (tb & s1 & E1 & H). apply tbl_here in E1 as (-> & ->). destruct (tb_func (ps_tbl s)); [discriminate|].
  apply bind_ok in H as (u2 & s2 & E2 & H). apply get_ok in E2 as (_ & T2 & _). apply bind_ok in H as (nm & s3 & E3 & H). apply lexeme_ok in E3 as (_ & ->).
  apply bind_ok in H as (id & s4 & E4 & H). apply on_tbl_ok in E4. apply declare_struct_still in E4. rewrite T2 in E4. pose proof (still_agrees _ _ _ E4 A) as A4.
  apply bind_ok in H as (tb & s1 & E1 & H). apply tbl_here in E1 as (-> & ->). destruct (sym_at (ps_tbl s4) id) as [[? ? []]|] eqn:Sy; try discriminate. destruct defined; [discriminate|].
  apply bind_ok in H as (u5 & s5 & E5 & H). apply mod_here in E5. assert (A5 : agrees E (ps_tbl s5)) by (rewrite E5; eapply agrees_put; eauto; cbn; discriminate).
  apply bind_ok in H as (u6 & s6 & E6 & H). apply get_ok in E6 as (_ & T6 & _). apply bind_ok in H as (u7 & s7 & E7 & H). apply next_ok in E7 as (_ & T7).
  apply bind_ok in H as (u8 & s8 & E8 & H). eapply fields_agree in E8; [|rewrite T7, T6; exact A5]. apply bind_ok in H as (u9 & s9 & E9 & H). apply next_ok in E9 as (_ & T9). rewrite <- T9 in E8.
  apply bind_ok in H as (tb & s1 & E1 & H). apply tbl_here in E1 as (-> & ->). destruct (sym_at (ps_tbl s9) id) as [[? ? []]|]; try discriminate; try (injection H as _ <-; exact E8).
  destruct fields0; [discriminate|]. injection H as _ <-. exact E8.
Qed.
Lemma later_top : forall n s ss s', parse_top n s = COk ss s' -> later (ps_tbl s) (ps_tbl s').
Proof.
  intros n s ss s' H F G. destruct (top_inv None n _ _ _ F H) as (Gr & _). exact (later_grew _ _ _ Gr F G).
Qed.
Lemma top_scoped : forall n s ss s' E, parse_top n s = COk ss s' -> agrees E (ps_tbl s) -> en_fun E = None -> outer E (ps_tbl s) (ps_tbl s') ->
  exists E', scoped_all params E ss E' /\ agrees E' (ps_tbl s') /\ frame E E'.
Proof.
  induction n as [|n IH]; [discriminate|]. intros s ss s' E H A N O.
  assert (Hs : has_scope E) by (intros X; congruence).
  cbn [parse_top] in H. apply bind_ok in H as (t & s1 & E1 & H). apply last_ok in E1 as (-> & ->).
  assert (W : (x <- parse_stmt n ;; ss <- parse_top n ;; cret (x :: ss)) s = COk ss s' -> exists E', scoped_all params E ss E' /\ agrees E' (ps_tbl s') /\ frame E E').
  { clear H. intros H. apply bind_ok in H as (st & s2 & E2 & H). apply bind_ok in H as (ss2 & s3 & E3 & H). injection H as <- <-.
    pose proof (later_stmt _ _ _ _ E2) as L2. pose proof (later_top _ _ _ _ E3) as L3.
    destruct (proj1 (stmts_scoped n) _ _ _ E E2 A Hs) as (E' & Sc & A2 & Fr); [exact (outer_mid _ _ _ _ _ _ A O eq_refl (later_refl _) L2 L3)|].
    destruct (IH _ _ _ E' E3 A2) as (E'' & Sc' & A3 & Fr'); [destruct Fr; congruence|refine (outer_mid _ _ _ _ _ _ A O _ L2 L3 (later_refl _)); apply Fr|].
    exists E''. split; [econstructor; eauto|]. split; auto. eapply frame_trans; eauto. }
  destruct (tk (ps_tok s)); try exact (W H); clear W.
  - apply bind_ok in H as (u & s2 & E2 & H). destruct (struct_agree _ _ _ _ _ E2 A) as (A2 & L2). pose proof (later_top _ _ _ _ H) as L3.
    eapply IH; eauto. exact (outer_mid _ _ _ _ _ _ A O eq_refl L2 L3 (later_refl _)).
  - injection H as <- <-. exists E. split; [constructor|]. split; [exact A|apply frame_refl].
Qed.
End Statements.

Lemma agrees_env t : good full t -> tb_func t = None -> agrees (env_of t) t.
Proof. intros [U Y _ _ _] F. constructor; auto. intros f X. discriminate X. Qed.
Theorem program_scoped n t src ss p : good full t -> tb_func t = None -> parse_program n (start_parse t src) = COk ss p ->
  scoped_all (names_of (ps_tbl p)) (env_of t) ss (env_of (ps_tbl p)).
Proof.
  intros G F H. unfold parse_program in H. assert (T : ps_tbl (start_parse t src) = t) by (unfold start_parse; destruct (lex_all src); reflexivity).
  apply bind_ok in H as (u & s1 & E1 & H). apply next_ok in E1 as (_ & T1). rewrite T in T1.
  assert (A : agrees (env_of t) (ps_tbl s1)) by (rewrite T1; apply agrees_env; auto).
  destruct (top_scoped (names_of (ps_tbl p)) _ _ _ _ _ H A eq_refl) as (E' & Sc & A' & Fr).
  { intros _. rewrite T1. split; auto. intros f nm X. unfold names_of. rewrite X. reflexivity. }
  replace (env_of (ps_tbl p)) with E'; auto. unfold env_of. rewrite (ag_values _ _ A'). destruct Fr as (A1 & A2 & A3 & A4). cbn in A1, A2, A3, A4.
  destruct E' as [f q sc k g]. cbn in *. rewrite A1, A2, (A4 eq_refl). destruct sc; [reflexivity|discriminate].
Qed.
