(** * Types of variables in the symbol table *)
From Verif Require Import Base Token Lexer Values Strings Syntax Symbols Code Parser Compile Layout CompileProofs TableInv ParserInv Host HostInv.
Local Open Scope nat_scope.

(** The symbol a reference goes through *)
Definition ref_sym (r : vref) : nat := match r with RGlobal id | RConst id => id | RLocal f _ | RArg f _ => f end.
Definition const_tag (c : constv) : tag :=
  match c with KBool _ => GBool | KInt _ => GInt | KFloat _ => GFloat | KStr _ => GStr end.
(** [None]: no such variable; [Some None]: its type is not known yet *)
Definition vt (b : symbody) (r : vref) : option (option tag) :=
  match r, b with
  | RGlobal _, SyGlobal _ _ g => Some g
  | RConst _, SyConst c => Some (Some (const_tag c))
  | RLocal _ i, SyFunc _ _ locals _ => option_map lv_tag (nth_error locals i)
  | RArg _ i, SyFunc _ args _ _ => option_map lv_tag (nth_error args i)
  | _, _ => None
  end.
Definition vtag (t : tbl) (r : vref) : option (option tag) :=
  match sym_at t (ref_sym r) with Some y => vt (sy_body y) r | None => None end.
Definition vsame (t t' : tbl) : Prop := forall r x, vtag t r = Some x -> vtag t' r = Some x.

(** What a type symbol may become *)
Definition tname (b b' : symbody) : Prop :=
  match b with
  | SyStruct _ _ => match b' with SyStruct _ _ | SyForeignTag => True | _ => False end
  | SyForeignTag => b' = SyForeignTag
  | _ => True
  end.
Definition kinds (t t' : tbl) : Prop :=
  forall id y, sym_at t id = Some y -> exists y', sym_at t' id = Some y' /\ sy_name y' = sy_name y /\ tname (sy_body y) (sy_body y').

Record tidy (t : tbl) : Prop := {
  td_unique : unique t;
  td_next : Forall (fun y => sy_id y < tb_next t) (tb_syms t);
  td_structs : forall y y' d d' fs fs', In y (tb_syms t) -> In y' (tb_syms t) -> sy_body y = SyStruct d fs -> sy_body y' = SyStruct d' fs' ->
    sy_name y = sy_name y' -> sy_id y = sy_id y';
  td_fields : forall y d fs, In y (tb_syms t) -> sy_body y = SyStruct d fs -> NoDup (map fd_name fs)
}.

Lemma vsame_refl t : vsame t t. Proof. intros r x E. exact E. Qed.
Lemma vsame_trans a b c : vsame a b -> vsame b c -> vsame a c.
Proof. intros A B r x E. auto. Qed.
Lemma kinds_refl t : kinds t t.
Proof. intros id y E. exists y. repeat split; auto. destruct (sy_body y); cbn; auto. Qed.
Lemma kinds_trans a b c : kinds a b -> kinds b c -> kinds a c.
Proof.
  intros A B id y E. destruct (A _ _ E) as (y1 & E1 & N1 & T1). destruct (B _ _ E1) as (y2 & E2 & N2 & T2).
  exists y2. split; auto. split; [congruence|]. destruct (sy_body y); cbn in *; auto.
  - destruct (sy_body y1); try contradiction; cbn in T2; auto. rewrite T2. exact I.
  - rewrite T1 in T2. cbn in T2. auto.
Qed.

(** [L]: variables that are new and have no type yet *)
Definition tstep (t t' : tbl) (L : list vref) : Prop :=
  kinds t t' /\ vsame t t' /\ NoDup L /\ Forall (fun r => vtag t r = None /\ vtag t' r = Some None) L.
Lemma tstep_refl t : tstep t t [].
Proof. split; [apply kinds_refl|]. split; [apply vsame_refl|]. split; constructor. Qed.
Lemma tstep_nil t t' : kinds t t' -> vsame t t' -> tstep t t' [].
Proof. intros A B. split; auto. split; auto. split; constructor. Qed.
Lemma tstep_trans a b c L L' : tstep a b L -> tstep b c L' -> tstep a c (L ++ L').
Proof.
  intros (A1 & A2 & A3 & A4) (B1 & B2 & B3 & B4). split; [eapply kinds_trans; eauto|]. split; [eapply vsame_trans; eauto|].
  rewrite Forall_forall in A4, B4. split.
  - clear A1 B1. induction L as [|r L IH]; auto. inversion A3; subst. cbn. constructor.
    + intros J. apply in_app_iff in J as [J|J]; auto. destruct (A4 r ltac:(left; auto)) as (_ & X). destruct (B4 _ J) as (Y & _). congruence.
    + apply IH; auto. intros x J. apply A4. right. auto.
  - apply Forall_forall. intros r J. apply in_app_iff in J as [J|J].
    + destruct (A4 _ J) as (X & Y). split; auto.
    + destruct (B4 _ J) as (X & Y). split; auto. destruct (vtag a r) eqn:E; auto. apply A2 in E. congruence.
Qed.

(** ** New symbols *)
Lemma new_at t t' name b id : tidy t -> tb_syms t' = tb_syms t ++ [mkSym (tb_next t) name b] ->
  sym_at t' id = if id =? tb_next t then Some (mkSym (tb_next t) name b) else sym_at t id.
Proof.
  intros T E. unfold sym_at. rewrite E, find_app. cbn [find sy_id].
  destruct (Nat.eqb_spec id (tb_next t)) as [->|N].
  - destruct (find _ (tb_syms t)) as [y|] eqn:F.
    + apply find_some in F as (I & F). apply Nat.eqb_eq in F. pose proof (proj1 (Forall_forall _ _) (td_next _ T) _ I) as L. cbn in L. lia.
    + rewrite Nat.eqb_refl. reflexivity.
  - destruct (find _ (tb_syms t)) as [y|] eqn:F; auto. destruct (Nat.eqb_spec (tb_next t) id); [congruence|auto].
Qed.
Definition no_struct (t : tbl) (name : text) : Prop := forall y d fs, In y (tb_syms t) -> sy_body y = SyStruct d fs -> sy_name y <> name.
Lemma new_step t t' name b : tidy t -> tb_syms t' = tb_syms t ++ [mkSym (tb_next t) name b] -> tb_next t' = S (tb_next t) ->
  (forall d fs, b = SyStruct d fs -> fs = [] /\ no_struct t name) ->
  tidy t' /\ tstep t t' [].
Proof.
  intros T E N B. assert (A : forall id, sym_at t' id = if id =? tb_next t then Some (mkSym (tb_next t) name b) else sym_at t id) by (intros; eapply new_at; eauto).
  assert (O : forall id y, sym_at t id = Some y -> sym_at t' id = Some y).
  { intros id y Y. rewrite A. destruct (Nat.eqb_spec id (tb_next t)) as [->|]; auto.
    apply sym_at_in in Y as (I & Y). pose proof (proj1 (Forall_forall _ _) (td_next _ T) _ I) as L. cbn in L. lia. }
  split; [|apply tstep_nil].
  - destruct T as [T1 T2 T3 T4]. constructor.
    + unfold unique in *. rewrite E, map_app. cbn. apply (Permutation.Permutation_NoDup (Permutation.Permutation_cons_append _ _)). constructor; [|exact T1].
      intros J. apply in_map_iff in J as (y & J1 & J2). pose proof (proj1 (Forall_forall _ _) T2 _ J2) as L. cbn in L. lia.
    + rewrite E, N. apply Forall_app. split; [eapply Forall_impl; [|exact T2]; intros; cbn in *; lia|]. constructor; [cbn; lia|constructor].
    + intros y y' d d' fs fs' I I' Y Y' Nm. rewrite E in I, I'. apply in_app_iff in I as [I|[<-|[]]]; apply in_app_iff in I' as [I'|[<-|[]]]; eauto.
      * cbn in Y', Nm. destruct (B _ _ Y') as (_ & X). exfalso. eapply X; eauto.
      * cbn in Y, Nm. destruct (B _ _ Y) as (_ & X). exfalso. eapply X; eauto.
    + intros y d fs I Y. rewrite E in I. apply in_app_iff in I as [I|[<-|[]]]; eauto. cbn in Y. destruct (B _ _ Y) as (-> & _). constructor.
  - intros id y Y. exists y. split; auto. split; auto. destruct (sy_body y); cbn; auto.
  - intros r x V. unfold vtag in *. destruct (sym_at t (ref_sym r)) as [y|] eqn:Y; try discriminate. rewrite (O _ _ Y). exact V.
Qed.

(** ** Rewritten symbols *)
Lemma put_step t f y b : tidy t -> sym_at t f = Some y ->
  (forall d fs, b = SyStruct d fs -> (exists d0 fs0, sy_body y = SyStruct d0 fs0) /\ NoDup (map fd_name fs)) ->
  tname (sy_body y) b ->
  tidy (put_body t f b) /\ kinds t (put_body t f b) /\
  (forall r, vtag (put_body t f b) r = if ref_sym r =? f then vt b r else vtag t r).
Proof.
  intros T Y B K. pose proof (fun id => sym_at_put t f y b id Y) as A. split; [|split].
  - destruct T as [T1 T2 T3 T4].
    assert (In1 : forall z, In z (tb_syms (put_body t f b)) -> exists z0, In z0 (tb_syms t) /\ sy_name z = sy_name z0 /\ sy_id z = sy_id z0 /\
       (sy_body z = sy_body z0 \/ (z0 = y /\ sy_body z = b))).
    { intros z Iz. unfold put_body in Iz. cbn [set_syms tb_syms] in Iz. apply in_map_iff in Iz as (z0 & <- & Iz). exists z0. split; auto.
      destruct (Nat.eqb_spec (sy_id z0) f) as [Ef|]; cbn; auto. repeat split; auto. right. split; auto. eapply sym_at_unique; eauto. }
    constructor.
    + unfold unique in *. cbn. rewrite map_map. erewrite map_ext; [exact T1|]. intros z. cbn. destruct (Nat.eqb_spec (sy_id z) f); auto.
    + cbn. apply Forall_forall. intros z Iz. apply in_map_iff in Iz as (z0 & <- & Iz). pose proof (proj1 (Forall_forall _ _) T2 _ Iz) as L. cbn in L.
      destruct (Nat.eqb_spec (sy_id z0) f); cbn; lia.
    + intros z z' d d' fs fs' I I' Z Z' Nm. destruct (In1 _ I) as (z0 & I0 & N0 & D0 & C0). destruct (In1 _ I') as (z1 & I1 & N1 & D1 & C1).
      assert (S0 : exists d fs, sy_body z0 = SyStruct d fs).
      { destruct C0 as [C0|(-> & C0)]; [rewrite C0 in Z; eauto|]. rewrite Z in C0. destruct (B _ _ (eq_sym C0)) as (X & _). exact X. }
      assert (S1 : exists d fs, sy_body z1 = SyStruct d fs).
      { destruct C1 as [C1|(-> & C1)]; [rewrite C1 in Z'; eauto|]. rewrite Z' in C1. destruct (B _ _ (eq_sym C1)) as (X & _). exact X. }
      destruct S0 as (d0 & fs0 & S0), S1 as (d1 & fs1 & S1). rewrite D0, D1. eapply T3; eauto. congruence.
    + intros z d fs I Z. destruct (In1 _ I) as (z0 & I0 & N0 & D0 & [C0|(-> & C0)]); [rewrite C0 in Z; eauto|].
      rewrite Z in C0. apply (B _ _ (eq_sym C0)).
  - intros id z Z. rewrite A. destruct (Nat.eqb_spec id f) as [->|]; [|exists z; repeat split; auto; destruct (sy_body z); cbn; auto].
    rewrite Y in Z. injection Z as <-. eexists. repeat split. exact K.
  - intros r. unfold vtag. rewrite A. destruct (ref_sym r =? f); reflexivity.
Qed.
(** ... that keep the variables that have been there *)
Lemma put_nil t f y b : tidy t -> sym_at t f = Some y ->
  (forall d fs, b = SyStruct d fs -> (exists d0 fs0, sy_body y = SyStruct d0 fs0) /\ NoDup (map fd_name fs)) ->
  tname (sy_body y) b -> (forall r x, vt (sy_body y) r = Some x -> vt b r = Some x) ->
  tidy (put_body t f b) /\ tstep t (put_body t f b) [].
Proof.
  intros T Y B K V. destruct (put_step _ _ _ _ T Y B K) as (A1 & A2 & A3). split; auto. apply tstep_nil; auto.
  intros r x E. rewrite A3. unfold vtag in E. destruct (Nat.eqb_spec (ref_sym r) f) as [Er|]; auto.
  rewrite Er, Y in E. auto.
Qed.

(** ** The operations *)
Definition tok {A} (m : tbl -> cres tbl A) : Prop := forall t a t', m t = COk a t' -> tidy t -> tidy t' /\ tstep t t' [].

Lemma tidy_same t t' : tb_syms t' = tb_syms t -> tb_next t' = tb_next t -> tidy t -> tidy t'.
Proof. intros X Y [T1 T2 T3 T4]. unfold unique in *. constructor; unfold unique; rewrite ?X, ?Y; auto. Qed.
Lemma tok_same {A} (m : tbl -> cres tbl A) : (forall t a t', m t = COk a t' -> tb_syms t' = tb_syms t /\ tb_next t' = tb_next t) -> tok m.
Proof.
  intros M t a t' E T. destruct (M _ _ _ E) as (X & Y). split.
  - destruct T as [T1 T2 T3 T4]. unfold unique in *. constructor; unfold unique; rewrite ?X, ?Y; auto.
  - apply tstep_nil; [intros id y Z; exists y; unfold sym_at in *; rewrite X; repeat split; auto; destruct (sy_body y); cbn; auto|].
    intros r x V. unfold vtag, sym_at in *. rewrite X. exact V.
Qed.
Lemma tok_intern x : tok (intern x).
Proof. apply tok_same. intros t a t' E. unfold intern in E. destruct (register_string _ _) as [[tab i]| | |]; try discriminate. injection E as _ <-. auto. Qed.
Lemma tok_reference x : tok (reference_variable x).
Proof. intros t a t' E T. apply reference_variable_same in E. subst. split; auto. apply tstep_refl. Qed.
Lemma find_none_struct (p : sym -> bool) l name : find p l = None -> (forall y d fs, sy_body y = SyStruct d fs -> sy_name y = name -> p y = true) ->
  forall y d fs, In y l -> sy_body y = SyStruct d fs -> sy_name y <> name.
Proof. intros F P y d fs I B N. pose proof (find_none _ _ F _ I) as X. rewrite (P _ _ _ B N) in X. discriminate. Qed.
Lemma text_eqb_refl' x : text_eqb x x = true.
Proof. apply text_eqb_eq. reflexivity. Qed.
Lemma tok_declare_struct name : tok (declare_struct name true).
Proof.
  intros t a t' E T. unfold declare_struct in E. destruct (get_struct_tag t name) as [y|] eqn:F; [injection E as _ <-; split; auto; apply tstep_refl|].
  unfold new_sym in E. injection E as _ <-. eapply new_step; eauto; try reflexivity. intros d fs [= <- <-]. split; auto.
  refine (find_none_struct _ _ _ F _). intros y d fs B <-. unfold is_struct_named. rewrite B. apply text_eqb_refl'.
Qed.
Lemma tok_tag_from_name name : tok (tag_from_name name).
Proof.
  intros t a t' E T. unfold tag_from_name in E. destruct (prim_tag name); [injection E as _ <-; split; auto; apply tstep_refl|].
  destruct (find (is_type_named name) (tb_syms t)) as [y|] eqn:F; [injection E as _ <-; split; auto; apply tstep_refl|].
  unfold declare_struct, new_sym in E. cbn in E. injection E as _ <-. eapply new_step; eauto; try reflexivity. intros d fs [= <- <-]. split; auto.
  refine (find_none_struct _ _ _ F _). intros y d fs B <-. unfold is_type_named. rewrite B. apply text_eqb_refl'.
Qed.
Lemma tok_get_nullable g : tok (get_nullable g).
Proof.
  intros t a t' E T. unfold get_nullable in E. destruct (find _ _) as [y|] eqn:F; [injection E as _ <-; split; auto; apply tstep_refl|].
  destruct (tag_name t g); try discriminate. unfold new_sym in E. injection E as _ <-. eapply new_step; eauto; try reflexivity. discriminate.
Qed.
Lemma tok_declare_const name c : tok (declare_const name c).
Proof.
  intros t a t' E T. unfold declare_const in E. apply cbind_ok in E as (r & t1 & E1 & E). apply reference_variable_same in E1. subst t1.
  destruct r; try discriminate. injection E as _ <-. eapply new_step; eauto; try reflexivity. discriminate.
Qed.
Lemma tok_declare_function name : tok (declare_function name).
Proof.
  intros t a t' E T. unfold declare_function, new_sym in E. injection E as _ <-.
  eapply new_step with (b := SyFunc (tb_nfun t) [] [] None); eauto; try reflexivity. discriminate.
Qed.
Lemma tok_bind_function name args va ret c : tok (bind_function name args va ret c).
Proof.
  intros t a t' E T. unfold bind_function in E. destruct (find _ _); try discriminate. unfold new_sym in E. injection E as _ <-.
  eapply new_step with (b := SyForeign (tb_nforeign t) args va ret c); eauto; try reflexivity. discriminate.
Qed.
Lemma tok_bind_macro name : tok (bind_macro name).
Proof.
  intros t a t' E T. unfold bind_macro in E. destruct (existsb _ _); try discriminate. injection E as _ <-.
  eapply new_step with (b := SyModule); eauto; try reflexivity. discriminate.
Qed.
Lemma tok_register_type name : tok (register_type name).
Proof.
  intros t a t' E T. unfold register_type in E. destruct (prim_tag name); [injection E as _ <-; split; auto; apply tstep_refl|].
  destruct (find _ _) as [y|] eqn:Y.
  - assert (Y' : sym_at t (sy_id y) = Some y) by (apply find_some in Y as (I & _); apply in_sym_at; auto; apply T).
    destruct y as [id n b]. destruct b; try (injection E as _ <-; split; auto; apply tstep_refl).
    destruct defined; injection E as _ <-; [split; auto; apply tstep_refl|].
    eapply put_nil; eauto; cbn; try discriminate; auto; try (intros [] x; discriminate).
  - injection E as _ <-. eapply new_step with (b := SyForeignTag); eauto; try reflexivity. discriminate.
Qed.
Lemma vt_func_more i args locals ret i' args' locals' ret' :
  (forall k v, nth_error args k = Some v -> exists v', nth_error args' k = Some v' /\ lv_tag v' = lv_tag v) ->
  (forall k v, nth_error locals k = Some v -> exists v', nth_error locals' k = Some v' /\ lv_tag v' = lv_tag v) ->
  forall r x, vt (SyFunc i args locals ret) r = Some x -> vt (SyFunc i' args' locals' ret') r = Some x.
Proof.
  intros A L r x. destruct r as [id|id|f k|f k]; cbn; try discriminate.
  - destruct (nth_error locals k) as [v|] eqn:V; try discriminate. destruct (L _ _ V) as (v' & -> & W). cbn. congruence.
  - destruct (nth_error args k) as [v|] eqn:V; try discriminate. destruct (A _ _ V) as (v' & -> & W). cbn. congruence.
Qed.
Lemma nth_more {A} (l l' : list A) k v : nth_error l k = Some v -> nth_error (l ++ l') k = Some v.
Proof. intros E. rewrite nth_error_app1; auto. apply nth_error_Some. congruence. Qed.
Lemma put_func t f i nm j args locals ret : tidy t -> sym_at t f = Some (mkSym i nm (SyFunc j args locals ret)) ->
  forall k args2 locals2 ret2,
  (forall k v, nth_error args k = Some v -> exists v', nth_error args2 k = Some v' /\ lv_tag v' = lv_tag v) ->
  (forall k v, nth_error locals k = Some v -> exists v', nth_error locals2 k = Some v' /\ lv_tag v' = lv_tag v) ->
  tidy (put_body t f (SyFunc k args2 locals2 ret2)) /\ tstep t (put_body t f (SyFunc k args2 locals2 ret2)) [].
Proof.
  intros T Y k args2 locals2 ret2 A L. eapply put_nil; eauto; cbn; try discriminate; auto. apply vt_func_more; auto.
Qed.
Lemma tok_declare_argument n name g : tok (declare_argument n name g).
Proof.
  intros t a t' E T. unfold declare_argument in E. destruct (tb_func t) as [f|]; try discriminate.
  destruct (sym_at t f) as [[i nm []]|] eqn:Y; try discriminate. destruct (find_index _ _ _); try discriminate. injection E as _ <-.
  eapply put_func; eauto. intros k v V. exists v. split; auto. apply nth_more; auto.
Qed.
Lemma tok_close : tok close_scope.
Proof.
  intros t a t' E T. unfold close_scope in E. destruct (tb_func t) as [f|].
  - destruct (sym_at t f) as [[i nm []]|] eqn:Y; try discriminate. injection E as _ <-.
    match goal with |- tidy (set_scope ?u ?k) /\ _ => assert (X : tidy u /\ tstep t u []) end.
    2: { split; [eapply tidy_same; [| |exact (proj1 X)]; reflexivity|exact (proj2 X)]. }
    eapply put_func; eauto. intros k v V. rewrite nth_error_map, V. cbn. eexists. split; [reflexivity|]. unfold end_scope. destruct (_ =? _); auto.
  - injection E as _ <-. split; [eapply tidy_same; [| |exact T]; reflexivity|exact (tstep_refl t)].
Qed.
Lemma tok_set_ret f g : tok (set_ret f g).
Proof.
  intros t a t' E T. unfold set_ret in E. destruct (sym_at t f) as [[i nm []]|] eqn:Y; try discriminate. injection E as _ <-.
  eapply put_func; eauto.
Qed.
Lemma nth_update_var vs i (h : lvar -> lvar) v k w : nth_error vs i = Some v -> (forall z, lv_tag (h z) = lv_tag z) ->
  nth_error vs k = Some w -> exists w', nth_error (update vs i (h v)) k = Some w' /\ lv_tag w' = lv_tag w.
Proof.
  intros V Hh W. destruct (Nat.eq_dec i k) as [<-|N].
  - exists (h v). split; [apply nth_error_update_eq, nth_error_Some; congruence|]. rewrite Hh. congruence.
  - exists w. split; auto. rewrite nth_error_update_ne; auto.
Qed.
Lemma tok_set_var_init r : tok (set_var_init r).
Proof.
  intros t a t' E T. unfold set_var_init in E. destruct r as [id|id|f i|f i]; try discriminate.
  - destruct (sym_at t id) as [[k nm []]|] eqn:Y; try discriminate. injection E as _ <-.
    eapply put_nil; eauto; cbn; try discriminate; auto.
  - cbn in E. destruct (sym_at t f) as [[k nm []]|] eqn:Y; try discriminate. destruct (nth_error locals i) as [v|] eqn:V; try discriminate. injection E as _ <-.
    eapply put_func; eauto. intros j w W. eapply nth_update_var; eauto.
  - cbn in E. destruct (sym_at t f) as [[k nm []]|] eqn:Y; try discriminate. destruct (nth_error args i) as [v|] eqn:V; try discriminate. injection E as _ <-.
    eapply put_func; eauto. intros j w W. eapply nth_update_var; eauto.
Qed.

(** Declarations: a new variable without a type *)
Lemma declare_global_step name t r t' : declare_global name t = COk r t' -> tidy t -> tidy t' /\ tstep t t' [r].
Proof.
  intros E T. unfold declare_global in E. apply cbind_ok in E as (o & t1 & E1 & E). apply reference_variable_same in E1. subst t1.
  assert (X : (let '(id, t1) := new_sym t name (SyGlobal (tb_nglob t) false None) in
      COk (RGlobal id) (set_nglob t1 (S (tb_nglob t)))) = COk r t') by (destruct o as [[]|]; auto; discriminate).
  clear E. unfold new_sym in X. injection X as <- <-.
  match goal with |- tidy ?u /\ _ => destruct (new_step t u name (SyGlobal (tb_nglob t) false None) T eq_refl eq_refl ltac:(discriminate)) as (T' & K & V & _) end.
  split; auto. split; auto. split; auto. split; [constructor; [intros []|constructor]|]. constructor; [|constructor].
  assert (N : sym_at t (tb_next t) = None).
  { destruct (sym_at t (tb_next t)) as [y|] eqn:Y; auto. apply sym_at_in in Y as (I & Y). pose proof (proj1 (Forall_forall _ _) (td_next _ T) _ I) as L. cbn in L. lia. }
  unfold vtag. cbn [ref_sym]. rewrite N. split; auto.
  erewrite new_at; [|exact T|reflexivity]. rewrite Nat.eqb_refl. reflexivity.
Qed.
Lemma declare_local_step name t r t' : declare_local name t = COk r t' -> tidy t -> tidy t' /\ tstep t t' [r].
Proof.
  intros E T. unfold declare_local in E. destruct (tb_func t) as [f|]; try discriminate.
  destruct (sym_at t f) as [[i nm []]|] eqn:Y; try discriminate. destruct (find_index _ _ _); try discriminate. injection E as <- <-.
  match goal with |- tidy (put_body t f ?b) /\ _ => destruct (put_func t f i nm index args locals ret T Y index args
    (locals ++ [mkLv name (Z.of_nat (length locals)) (tb_scope t) false false None]) ret) as (T' & K & V & _) end; auto.
  - eauto.
  - intros k v W. exists v. split; auto. apply nth_more; auto.
  - split; auto. split; auto. split; auto. split; [constructor; [intros []|constructor]|]. constructor; [|constructor].
    unfold vtag. cbn [ref_sym]. rewrite (sym_at_put _ _ _ _ _ Y), Y, Nat.eqb_refl. cbn [sy_body vt].
    rewrite nth_error_app2, Nat.sub_diag by lia. split; [|reflexivity].
    rewrite (proj2 (nth_error_None locals (length locals))) by lia. reflexivity.
Qed.
(** Giving a type to a variable *)
Lemma set_tag_step r g t u t' : set_var_tag r g t = COk u t' -> tidy t ->
  tidy t' /\ kinds t t' /\ vtag t' r = Some (Some g) /\ forall r', r' <> r -> vtag t' r' = vtag t r'.
Proof.
  intros E T. unfold set_var_tag in E. destruct r as [id|id|f i|f i]; try discriminate.
  - destruct (sym_at t id) as [[k nm []]|] eqn:Y; try discriminate. injection E as _ <-.
    destruct (put_step t id _ (SyGlobal index init (Some g)) T Y) as (A1 & A2 & A3); cbn; try discriminate; auto.
    split; auto. split; auto. split; [rewrite A3; cbn; rewrite Nat.eqb_refl; reflexivity|].
    intros r' N. rewrite A3. unfold vtag. destruct (Nat.eqb_spec (ref_sym r') id) as [Er|]; auto. rewrite Er, Y. cbn in *.
    destruct r'; cbn in *; auto. congruence.
  - cbn in E. destruct (sym_at t f) as [[k nm []]|] eqn:Y; try discriminate. destruct (nth_error locals i) as [v|] eqn:V; try discriminate. injection E as _ <-.
    destruct (put_step t f _ (SyFunc index args (update locals i (lv_set_tag g v)) ret) T Y) as (A1 & A2 & A3); cbn; try discriminate; auto.
    split; auto. split; auto. split; [rewrite A3; cbn; rewrite Nat.eqb_refl, nth_error_update_eq by (apply nth_error_Some; congruence); reflexivity|].
    intros r' N. rewrite A3. unfold vtag. destruct (Nat.eqb_spec (ref_sym r') f) as [Er|]; auto. rewrite Er, Y. cbn in *.
    destruct r'; cbn in *; auto. subst. rewrite nth_error_update_ne; auto; congruence.
  - cbn in E. destruct (sym_at t f) as [[k nm []]|] eqn:Y; try discriminate. destruct (nth_error args i) as [v|] eqn:V; try discriminate. injection E as _ <-.
    destruct (put_step t f _ (SyFunc index (update args i (lv_set_tag g v)) locals ret) T Y) as (A1 & A2 & A3); cbn; try discriminate; auto.
    split; auto. split; auto. split; [rewrite A3; cbn; rewrite Nat.eqb_refl, nth_error_update_eq by (apply nth_error_Some; congruence); reflexivity|].
    intros r' N. rewrite A3. unfold vtag. destruct (Nat.eqb_spec (ref_sym r') f) as [Er|]; auto. rewrite Er, Y. cbn in *.
    destruct r'; cbn in *; auto. subst. rewrite nth_error_update_ne; auto; congruence.
Qed.
