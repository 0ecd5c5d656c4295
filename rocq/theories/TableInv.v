(** * Invariants of the symbol table *)
From Verif Require Import Base Token Values Strings Syntax Symbols Code Compile Layout CompileProofs.
Local Open Scope nat_scope.

(** Symbols that are numbered: functions, foreign functions, global variables *)
Inductive nkind := NFun | NForeign | NGlob.
Definition key (b : symbody) : list (nkind * nat) :=
  match b with
  | SyFunc i _ _ _ => [(NFun, i)]
  | SyForeign i _ _ _ _ => [(NForeign, i)]
  | SyGlobal i _ _ => [(NGlob, i)]
  | _ => []
  end.
Definition keys (l : list sym) : list (nkind * nat) := flat_map (fun y => key (sy_body y)) l.
Definition count (t : tbl) (k : nkind) : nat :=
  match k with NFun => tb_nfun t | NForeign => tb_nforeign t | NGlob => tb_nglob t end.

(** The functions of the table, in order *)
Definition funs (l : list sym) : list nat :=
  flat_map (fun y => match sy_body y with SyFunc _ _ _ _ => [sy_id y] | _ => [] end) l.

Definition positions (off : Z) (vs : list lvar) : Prop :=
  forall i v, nth_error vs i = Some v -> lv_index v = (Z.of_nat i - off)%Z.

(** [want]: the number of parameters of the function whose parameter list is
    being declared *)
Definition body_ok (want : option nat) (b : symbody) : Prop :=
  match b with
  | SyFunc _ args locals _ =>
      positions 0 locals /\
      positions (Z.of_nat (match want with Some k => k | None => length args end)) args
  | SyStruct d fs => length fs <= 255 /\ (d = false -> fs = [])
  | _ => True
  end.

Record good (want : nat -> option nat) (t : tbl) : Prop := mkGood {
  gd_unique : unique t;
  gd_next : Forall (fun y => sy_id y < tb_next t) (tb_syms t);
  gd_keys : NoDup (keys (tb_syms t));
  gd_count : Forall (fun p => snd p < count t (fst p)) (keys (tb_syms t));
  gd_body : Forall (fun y => body_ok (want (sy_id y)) (sy_body y)) (tb_syms t)
}.
Definition full (f : nat) : option nat := None.

Lemma good_init : good full init_tbl.
Proof. constructor; cbn; constructor. Qed.

Lemma sym_at_in t id y : sym_at t id = Some y -> In y (tb_syms t) /\ sy_id y = id.
Proof. intros E. apply find_some in E. rewrite Nat.eqb_eq in E. exact E. Qed.

Lemma in_sym_at t y : unique t -> In y (tb_syms t) -> sym_at t (sy_id y) = Some y.
Proof.
  intros U I. destruct (sym_at t (sy_id y)) as [z|] eqn:E.
  - f_equal. symmetry. eapply sym_at_unique; eauto.
  - exfalso. eapply find_none in E; [|exact I]. rewrite Nat.eqb_refl in E. discriminate.
Qed.

Lemma sym_at_lt w t id y : good w t -> sym_at t id = Some y -> id < tb_next t.
Proof.
  intros G E. apply sym_at_in in E as [I <-]. exact (proj1 (Forall_forall _ _) (gd_next _ _ G) _ I).
Qed.

(** ** Writing a symbol *)
Lemma put_syms (P : sym -> sym -> Prop) t id b : (forall y, P y y) ->
  (forall y, In y (tb_syms t) -> sy_id y = id -> P y (mkSym id (sy_name y) b)) ->
  Forall2 P (tb_syms t) (tb_syms (put_body t id b)).
Proof.
  intros R W. unfold put_body. cbn [set_syms tb_syms]. induction (tb_syms t) as [|y l IH]; cbn; constructor.
  - destruct (Nat.eqb_spec (sy_id y) id); [apply W; cbn; auto|apply R].
  - apply IH. intros z I. apply W. right. exact I.
Qed.

Lemma put_map {A} (f : sym -> A) t id b : 
  (forall y, In y (tb_syms t) -> sy_id y = id -> f (mkSym id (sy_name y) b) = f y) ->
  map f (tb_syms (put_body t id b)) = map f (tb_syms t).
Proof.
  intros W. unfold put_body. cbn [set_syms tb_syms]. rewrite map_map. apply map_ext_in. intros y I.
  destruct (Nat.eqb_spec (sy_id y) id); auto.
Qed.

Lemma keys_map l : keys l = concat (map (fun y => key (sy_body y)) l).
Proof. unfold keys. apply flat_map_concat_map. Qed.
Lemma funs_map l : funs l = concat (map (fun y => match sy_body y with SyFunc _ _ _ _ => [sy_id y] | _ => [] end) l).
Proof. unfold funs. apply flat_map_concat_map. Qed.

Definition is_func_body (b : symbody) : bool := match b with SyFunc _ _ _ _ => true | _ => false end.

Lemma key_func b b' : key b' = key b -> is_func_body b' = is_func_body b.
Proof. destruct b, b'; cbn; intros E; auto; discriminate. Qed.

Lemma put_keys w t id y b : good w t -> sym_at t id = Some y -> key b = key (sy_body y) ->
  keys (tb_syms (put_body t id b)) = keys (tb_syms t) /\ funs (tb_syms (put_body t id b)) = funs (tb_syms t) /\
  map sy_id (tb_syms (put_body t id b)) = map sy_id (tb_syms t).
Proof.
  intros G E K.
  assert (D : forall z, In z (tb_syms t) -> sy_id z = id -> z = y)
    by (intros; eapply sym_at_unique; eauto; apply (gd_unique _ _ G)).
  split; [|split].
  - rewrite !keys_map. f_equal. apply put_map. intros z I Ez. cbn. rewrite (D z I Ez). exact K.
  - rewrite !funs_map. f_equal. apply put_map. intros z I Ez. cbn. rewrite Ez, (D z I Ez).
    apply key_func in K. destruct b, (sy_body y); cbn in K; congruence.
  - apply put_map. intros z I Ez. cbn. auto.
Qed.

Lemma put_good w w' t id y b : good w t -> sym_at t id = Some y -> key b = key (sy_body y) ->
  body_ok (w' id) b -> (forall g, g <> id -> w' g = w g) -> good w' (put_body t id b).
Proof.
  intros G E K B W. destruct (put_keys w t id y b G E K) as (E1 & _ & E3). constructor.
  - unfold unique. rewrite E3. apply (gd_unique _ _ G).
  - pose proof (gd_next _ _ G) as N. apply Forall_forall. intros z I. apply Forall_forall with (x := sy_id z) (l := map sy_id (tb_syms t)) (P := fun i => i < tb_next t).
    + apply Forall_map. exact N.
    + rewrite <- E3. apply in_map. exact I.
  - rewrite E1. apply (gd_keys _ _ G).
  - rewrite E1. apply (gd_count _ _ G).
  - apply Forall_forall. intros z I. unfold put_body in I. cbn [set_syms tb_syms] in I. apply in_map_iff in I as (x & <- & I).
    pose proof (proj1 (Forall_forall _ _) (gd_body _ _ G) x I) as Bx. cbn beta in Bx.
    destruct (Nat.eqb_spec (sy_id x) id) as [Ex|N]; [exact B|]. rewrite W by auto. exact Bx.
Qed.

(** ** A new symbol *)
Definition bump (k : nkind) (b : symbody) : nat :=
  match k, b with
  | NFun, SyFunc _ _ _ _ | NForeign, SyForeign _ _ _ _ _ | NGlob, SyGlobal _ _ _ => 1
  | _, _ => 0
  end.

Lemma count_in l k i : In (k, i) (keys l) -> forall t, Forall (fun p => snd p < count t (fst p)) (keys l) -> i < count t k.
Proof. intros I t F. apply (proj1 (Forall_forall _ _) F (k, i) I). Qed.

Lemma new_good w t t' name b : good w t -> 
  tb_syms t' = tb_syms t ++ [mkSym (tb_next t) name b] -> tb_next t' = S (tb_next t) ->
  (forall k, count t' k = count t k + bump k b) ->
  (forall k i, key b = [(k, i)] -> i = count t k) -> body_ok (w (tb_next t)) b -> good w t'.
Proof.
  intros G E1 E2 C K B. constructor.
  - unfold unique. rewrite E1, map_app. cbn [map].
    rewrite <- (rev_involutive (_ ++ _)), rev_app_distr. apply NoDup_rev. cbn. constructor; [|apply NoDup_rev, (gd_unique _ _ G)].
    intros I. apply in_rev in I. apply in_map_iff in I as (y & Ey & I).
    pose proof (proj1 (Forall_forall _ _) (gd_next _ _ G) y I). cbn in *. lia.
  - rewrite E1, E2. apply Forall_app. split; [|repeat constructor; cbn; lia].
    eapply Forall_impl; [|apply (gd_next _ _ G)]. cbn. intros; lia.
  - rewrite E1. unfold keys. rewrite flat_map_app. fold (keys (tb_syms t)). cbn [flat_map sy_body app]. rewrite app_nil_r.
    assert (key b = [] \/ exists k i, key b = [(k, i)]) as [->|(k & i & Kb)] by (destruct b; cbn; eauto).
    { rewrite app_nil_r. apply (gd_keys _ _ G). }
    rewrite Kb. rewrite <- (rev_involutive (_ ++ _)), rev_app_distr. apply NoDup_rev. cbn.
    constructor; [|apply NoDup_rev, (gd_keys _ _ G)]. intros I. apply in_rev in I.
    pose proof (count_in _ _ _ I t (gd_count _ _ G)). rewrite (K _ _ Kb) in H. lia.
  - rewrite E1. unfold keys. rewrite flat_map_app. fold (keys (tb_syms t)). cbn [flat_map sy_body app]. rewrite app_nil_r.
    apply Forall_app. split.
    + eapply Forall_impl; [|apply (gd_count _ _ G)]. intros [k i]. cbn. rewrite C. lia.
    + destruct (key b) as [|[k i] [|]] eqn:Kb; [constructor| |destruct b; discriminate].
      constructor; [|constructor]. cbn. rewrite C, (K k i eq_refl). destruct b; try discriminate; injection Kb as <- <-; cbn; lia.
  - rewrite E1. apply Forall_app. split; [apply (gd_body _ _ G)|]. repeat constructor. exact B.
Qed.

Lemma good_ext w w' t : (forall g, w' g = w g) -> good w t -> good w' t.
Proof.
  intros E [A B C D F]. constructor; auto. eapply Forall_impl; [|exact F]. intros y. cbn. rewrite E. auto.
Qed.

(** Fields the invariant does not look at *)
Lemma good_same w t t' : tb_syms t' = tb_syms t -> tb_next t' = tb_next t ->
  (forall k, count t' k = count t k) -> good w t -> good w t'.
Proof.
  intros E1 E2 C [A B D F G]. constructor; unfold unique; rewrite ?E1, ?E2; auto.
  eapply Forall_impl; [|exact F]. intros [k i]. cbn. rewrite C. auto.
Qed.

(** What never changes about a symbol *)
Definition label (y : sym) : nat * text * list (nkind * nat) := (sy_id y, sy_name y, key (sy_body y)).

(** ** Steps that declare no function, variable or foreign function *)
Record quiet (t t' : tbl) : Prop := mkQuiet {
  qt_good : forall w, good w t -> good w t';
  qt_func : tb_func t' = tb_func t;
  qt_scope : tb_scope t' = tb_scope t;
  qt_funs : funs (tb_syms t') = funs (tb_syms t);
  qt_count : forall k, count t' k = count t k;
  qt_strings : exists l, tb_strings t' = tb_strings t ++ l;
  qt_at : forall id y, sym_at t id = Some y -> sym_at t' id = Some y;
  qt_labels : exists ns, map label (tb_syms t') = map label (tb_syms t) ++ ns
}.

Lemma quiet_refl t : quiet t t.
Proof.
  constructor; auto; exists []; rewrite app_nil_r; auto.
Qed.
Lemma quiet_trans a b c : quiet a b -> quiet b c -> quiet a c.
Proof.
  intros [A1 A2 A3 A4 A5 (l1 & A6) A7 (n1 & A8)] [B1 B2 B3 B4 B5 (l2 & B6) B7 (n2 & B8)].
  constructor; auto; try congruence.
  - exists (l1 ++ l2). rewrite B6, A6, app_assoc. reflexivity.
  - exists (n1 ++ n2). rewrite B8, A8, app_assoc. reflexivity.
Qed.

Lemma find_app {A} (p : A -> bool) l l' : find p (l ++ l') = match find p l with Some x => Some x | None => find p l' end.
Proof. induction l as [|x l IH]; cbn; auto. destruct (p x); auto. Qed.

Lemma new_quiet t name b : key b = [] -> body_ok None b -> quiet t (snd (new_sym t name b)).
Proof.
  intros K B. constructor.
  - intros w G. eapply new_good with (b := b) (name := name); try reflexivity; auto.
    + intros []; destruct b; try discriminate; cbn; lia.
    + rewrite K. discriminate.
    + destruct b; try discriminate; auto.
  - reflexivity.
  - reflexivity.
  - cbn. unfold funs. rewrite flat_map_app. destruct b; try discriminate; cbn; rewrite app_nil_r; reflexivity.
  - intros []; reflexivity.
  - exists []. cbn. rewrite app_nil_r. reflexivity.
  - intros id y E. unfold sym_at in *; cbn; rewrite find_app, E; reflexivity.
  - eexists. cbn. rewrite map_app. reflexivity.
Qed.

Lemma declare_struct_quiet name s t id t' : declare_struct name s t = COk id t' -> quiet t t'.
Proof.
  unfold declare_struct. destruct (if s then _ else _) as [y|].
  - intros [= _ <-]. apply quiet_refl.
  - destruct (new_sym t name (SyStruct false [])) eqn:E. intros [= _ <-].
    pose proof (new_quiet t name (SyStruct false []) eq_refl ltac:(cbn; split; [lia|auto])) as Q. rewrite E in Q. exact Q.
Qed.

Lemma tag_from_name_quiet name t g t' : tag_from_name name t = COk g t' -> quiet t t'.
Proof.
  unfold tag_from_name. destruct (prim_tag name) as [g0|]; [intros [= _ <-]; apply quiet_refl|].
  destruct (find _ _); [intros [= _ <-]; apply quiet_refl|].
  destruct (declare_struct name false t) eqn:E; try discriminate. intros [= _ <-]. eapply declare_struct_quiet; eauto.
Qed.

Lemma get_nullable_quiet g t g' t' : get_nullable g t = COk g' t' -> quiet t t'.
Proof.
  unfold get_nullable. destruct (find _ _); [intros [= _ <-]; apply quiet_refl|].
  destruct (tag_name t g) as [n|]; try discriminate.
  destruct (new_sym t (firstn 255 (n ++ text_of "?")) (SyNullable g)) eqn:E. intros [= _ <-].
  pose proof (new_quiet t (firstn 255 (n ++ text_of "?")) (SyNullable g) eq_refl I) as Q. rewrite E in Q. exact Q.
Qed.

Lemma strings_quiet t l : quiet t (set_strings t (tb_strings t ++ l)).
Proof.
  constructor; try reflexivity.
  - intros w. apply good_same; reflexivity.
  - eexists. reflexivity.
  - auto.
  - exists []. rewrite app_nil_r. reflexivity.
Qed.

Lemma intern_quiet x t i t' : intern x t = COk i t' -> quiet t t'.
Proof.
  unfold intern, register_string. destruct (find_string _ _ _).
  - intros [= _ <-]. rewrite <- (app_nil_r (tb_strings t)) at 1. apply strings_quiet.
  - unfold oassert. destruct (_ <? _); try discriminate. intros [= _ <-]. apply strings_quiet.
Qed.

Lemma reference_variable_same name t r t' : reference_variable name t = COk r t' -> t' = t.
Proof.
  unfold reference_variable. destruct (tb_func t) as [f|]; [|intros [= _ <-]; auto].
  destruct (sym_at t f) as [[? ? []]|]; try discriminate.
  destruct (find_index _ locals 0); [intros [= _ <-]; auto|]. destruct (find_index _ args 0); intros [= _ <-]; auto.
Qed.

(** ** Where references may point: variables of the function being parsed *)
Definition in_scope (cur : option nat) (r : vref) : Prop :=
  match r with RLocal f _ | RArg f _ => cur = Some f | _ => True end.

Lemma reference_variable_scope name t r t' : reference_variable name t = COk (Some r) t' -> in_scope (tb_func t) r.
Proof.
  unfold reference_variable.
  assert (Gl : forall r, global_ref t name = Some r -> in_scope (tb_func t) r).
  { intros r0. unfold global_ref. destruct (find _ _) as [[? ? []]|]; cbn; intros [= <-]; exact I. }
  destruct (tb_func t) as [f|] eqn:F; [|intros [= E _]; apply Gl; auto].
  destruct (sym_at t f) as [[? ? []]|]; try discriminate.
  destruct (find_index _ locals 0); [intros [= <- _]; reflexivity|].
  destruct (find_index _ args 0); [intros [= <- _]; reflexivity|]. intros [= E _]. apply Gl; auto.
Qed.
