(** * Tables in which every type is a type

    Between the statements of a program every type a symbol mentions is still
    there, optional types are not nested, and only the variables of [:=] that the
    type checker has not reached yet are without one. *)
From Verif Require Import Base Token Lexer Values Strings Syntax Symbols Code Parser Resolve Compile Layout CompileProofs TableInv ParserInv Host HostInv TagTable TagParse TagResolve.
Local Open Scope nat_scope.

Definition live (t : tbl) (g : tag) : Prop := exists k, kind_of t g = Some k.
Definition tagged (t : tbl) (D : list vref) (r : vref) (o : option tag) : Prop :=
  match o with Some g => live t g | None => In r D end.
(** [D]: variables that may be without a type; [o]: a function whose result is
    not known yet *)
Definition body_ok (t : tbl) (D : list vref) (o : option nat) (id : nat) (b : symbody) : Prop :=
  match b with
  | SyGlobal _ _ g => tagged t D (RGlobal id) g
  | SyFunc _ args locals ret =>
      (forall i v, nth_error args i = Some v -> exists g, lv_tag v = Some g /\ live t g) /\
      (forall i v, nth_error locals i = Some v -> tagged t D (RLocal id i) (lv_tag v)) /\
      match ret with Some g => live t g | None => o = Some id end
  | SyForeign _ args _ ret _ => Forall (live t) args /\ live t ret
  | SyStruct _ fs => Forall (fun f => live t (fd_tag f)) fs
  | SyNullable g => exists k, kind_of t g = Some k /\ forall g', k <> KNullable g'
  | SyConst _ | SyForeignTag | SyModule => True
  end.
Definition settled (t : tbl) (D : list vref) (o : option nat) : Prop :=
  forall id y, sym_at t id = Some y -> body_ok t D o id (sy_body y).

Definition kle (t t' : tbl) : Prop := forall g k, kind_of t g = Some k -> exists k', kind_of t' g = Some k' /\ grown k k'.
Lemma live_le t t' g : kle t t' -> live t g -> live t' g.
Proof. intros K (k & E). destruct (K _ _ E) as (k' & E' & _). exists k'. exact E'. Qed.
Lemma tagged_le t t' D D' r o : kle t t' -> incl D D' -> tagged t D r o -> tagged t' D' r o.
Proof. intros K I. destruct o; cbn; [apply live_le; exact K|apply I]. Qed.
Lemma body_le t t' D D' o o' id b : kle t t' -> incl D D' -> (o = Some id -> o' = Some id) -> body_ok t D o id b -> body_ok t' D' o' id b.
Proof.
  intros K J O. destruct b; cbn [body_ok]; auto.
  - apply tagged_le; auto.
  - intros (A & B & C). split; [|split].
    + intros i v V. destruct (A _ _ V) as (g & G & L). exists g. split; auto. eapply live_le; eauto.
    + intros i v V. eapply tagged_le; eauto.
    + destruct ret; [eapply live_le; eauto|auto].
  - intros (A & B). split; [|eapply live_le; eauto]. revert A. apply Forall_impl. intros; eapply live_le; eauto.
  - apply Forall_impl. intros; eapply live_le; eauto.
  - intros (k & E & N). destruct (K _ _ E) as (k' & E' & G). exists k'. split; auto. destruct G as [->|(_ & ->)]; [exact N|discriminate].
Qed.

(** Variables without a type may be forgotten once they have one *)
Definition knows (t : tbl) (r : vref) : Prop := exists g, vtag t r = Some (Some g).
Lemma settled_drop t D D' o : (forall r, In r D -> In r D' \/ knows t r) -> settled t D o -> settled t D' o.
Proof.
  intros H S id y Y. specialize (S _ _ Y). destruct y as [i n b]. cbn [sy_body] in *. destruct b; cbn [body_ok] in *; auto.
  - destruct t0; cbn in *; auto. destruct (H _ S) as [|(g & V)]; auto. unfold vtag in V. cbn in V. rewrite Y in V. discriminate V.
  - destruct S as (A & B & C). split; auto. split; auto. intros j v V. specialize (B _ _ V). destruct (lv_tag v) eqn:L; cbn in *; auto.
    destruct (H _ B) as [|(g & W)]; auto. unfold vtag in W. cbn in W. rewrite Y in W. cbn in W. rewrite V in W. cbn in W. congruence.
Qed.

(** ** What parsing may do to a table *)
Definition vup (l l' : list lvar) : Prop :=
  forall i v, nth_error l i = Some v -> exists v', nth_error l' i = Some v' /\ (lv_tag v <> None -> lv_tag v' <> None).
Definition up (b b' : symbody) : Prop :=
  match b, b' with
  | SyGlobal _ _ g, SyGlobal _ _ g' => g <> None -> g' <> None
  | SyFunc _ args locals _, SyFunc _ args' locals' _ => vup args args' /\ vup locals locals'
  | SyNullable g, SyNullable g' => g = g'
  | SyConst _, SyConst _ | SyForeign _ _ _ _ _, SyForeign _ _ _ _ _ | SyStruct _ _, SyStruct _ _ | SyForeignTag, SyForeignTag | SyModule, SyModule => True
  | _, _ => False
  end.
Definition mono (t t' : tbl) : Prop :=
  forall id y, sym_at t id = Some y -> exists y', sym_at t' id = Some y' /\ up (sy_body y) (sy_body y').
Lemma vup_refl l : vup l l. Proof. intros i v V. exists v. auto. Qed.
Lemma vup_trans a b c : vup a b -> vup b c -> vup a c.
Proof. intros A B i v V. destruct (A _ _ V) as (v1 & V1 & K1). destruct (B _ _ V1) as (v2 & V2 & K2). exists v2. auto. Qed.
Lemma up_refl b : up b b.
Proof. destruct b; cbn; auto. split; apply vup_refl. Qed.
Lemma up_trans a b c : up a b -> up b c -> up a c.
Proof.
  destruct a, b; cbn; try contradiction; destruct c; cbn; try contradiction; auto; try congruence.
  intros (A & B) (C & D). split; eapply vup_trans; eauto.
Qed.
Lemma mono_refl t : mono t t. Proof. intros id y Y. exists y. split; auto. apply up_refl. Qed.
Lemma mono_trans a b c : mono a b -> mono b c -> mono a c.
Proof. intros A B id y Y. destruct (A _ _ Y) as (y1 & Y1 & U1). destruct (B _ _ Y1) as (y2 & Y2 & U2). exists y2. split; auto. eapply up_trans; eauto. Qed.
Lemma mono_le t t' : mono t t' -> kle t t'.
Proof.
  intros M g k. destruct g; cbn; try (intros [= <-]; eexists; split; [reflexivity|left; reflexivity]).
  destruct (sym_at t id) as [[i n b]|] eqn:Y; try discriminate. destruct (M _ _ Y) as ([i' n' b'] & -> & U). cbn in U.
  destruct b; try discriminate; destruct b'; try contradiction; intros [= <-]; cbn in U; subst; eexists; (split; [reflexivity|left; reflexivity]).
Qed.
Lemma mono_live t t' g : mono t t' -> live t g -> live t' g.
Proof. intros M. apply live_le, mono_le, M. Qed.
Lemma mono_knows t t' r : mono t t' -> knows t r -> knows t' r.
Proof.
  intros M (g & V). unfold knows, vtag in *. destruct (sym_at t (ref_sym r)) as [[i n b]|] eqn:Y; try discriminate. destruct (M _ _ Y) as ([i' n' b'] & -> & U).
  cbn [sy_body] in *. destruct r as [id|id|f k|f k]; cbn in V |- *; destruct b; try discriminate; destruct b'; try contradiction; cbn in U.
  - injection V as ->. specialize (U ltac:(discriminate)). destruct t1 as [g'|]; [exists g'; reflexivity|congruence].
  - eauto.
  - destruct U as (_ & U). destruct (nth_error locals k) as [v|] eqn:E; try discriminate. destruct (U _ _ E) as (v' & -> & K). cbn in V |- *. injection V as V.
    rewrite V in K. specialize (K ltac:(discriminate)). destruct (lv_tag v'); [eauto|congruence].
  - destruct U as (U & _). destruct (nth_error args k) as [v|] eqn:E; try discriminate. destruct (U _ _ E) as (v' & -> & K). cbn in V |- *. injection V as V.
    rewrite V in K. specialize (K ltac:(discriminate)). destruct (lv_tag v'); [eauto|congruence].
Qed.
Definition is_var (t : tbl) (r : vref) : Prop := vtag t r <> None.
Lemma mono_var t t' r : mono t t' -> is_var t r -> is_var t' r.
Proof.
  intros M V. unfold is_var, vtag in *. destruct (sym_at t (ref_sym r)) as [[i n b]|] eqn:Y; [|congruence]. destruct (M _ _ Y) as ([i' n' b'] & -> & U).
  cbn [sy_body] in *. destruct r as [id|id|f k|f k]; cbn in V |- *; destruct b; try congruence; destruct b'; try contradiction; cbn in U; try discriminate.
  - destruct U as (_ & U). destruct (nth_error locals k) as [v|] eqn:E; [|exfalso; apply V; reflexivity]. destruct (U _ _ E) as (v' & -> & K). discriminate.
  - destruct U as (U & _). destruct (nth_error args k) as [v|] eqn:E; [|exfalso; apply V; reflexivity]. destruct (U _ _ E) as (v' & -> & K). discriminate.
Qed.
Definition is_struct (t : tbl) (id : nat) : Prop := exists y d fs, sym_at t id = Some y /\ sy_body y = SyStruct d fs.
Definition is_func (t : tbl) (id : nat) : Prop := exists y i a l r, sym_at t id = Some y /\ sy_body y = SyFunc i a l r.
Lemma mono_struct t t' id : mono t t' -> is_struct t id -> is_struct t' id.
Proof. intros M (y & d & fs & Y & B). destruct (M _ _ Y) as (y' & Y' & U). rewrite B in U. destruct (sy_body y') eqn:B'; try contradiction. exists y'. eauto. Qed.
Lemma mono_func t t' id : mono t t' -> is_func t id -> is_func t' id.
Proof. intros M (y & i & a & l & r & Y & B). destruct (M _ _ Y) as (y' & Y' & U). rewrite B in U. destruct (sy_body y') eqn:B'; try contradiction. exists y'. eauto 10. Qed.

(** ** Single changes *)
Definition inv (t : tbl) (D : list vref) (o : option nat) : Prop := tidy t /\ settled t D o.

Lemma same_move t t' D o : tb_syms t' = tb_syms t -> tb_next t' = tb_next t -> inv t D o -> inv t' D o /\ mono t t'.
Proof.
  intros X Y (T & S). assert (A : forall id, sym_at t' id = sym_at t id) by (intros; unfold sym_at; rewrite X; reflexivity).
  assert (M : mono t t') by (intros id y E; exists y; rewrite A; split; auto; apply up_refl).
  split; auto. split; [eapply tidy_same; eauto|]. intros id y E. rewrite A in E.
  exact (body_le t t' D D o o id _ (mono_le _ _ M) (incl_refl _) (fun e => e) (S _ _ E)).
Qed.
Lemma new_mono t t' name b : tidy t -> tb_syms t' = tb_syms t ++ [mkSym (tb_next t) name b] -> mono t t'.
Proof.
  intros T E id y Y. exists y. split; [|apply up_refl]. erewrite new_at; eauto. destruct (Nat.eqb_spec id (tb_next t)) as [->|]; auto.
  apply sym_at_in in Y as (J & Y). pose proof (proj1 (Forall_forall _ _) (td_next _ T) _ J) as L. cbn in L. lia.
Qed.
Lemma new_move t t' name b D D' o o' : inv t D o -> tb_syms t' = tb_syms t ++ [mkSym (tb_next t) name b] -> tb_next t' = S (tb_next t) ->
  (forall d fs, b = SyStruct d fs -> fs = [] /\ no_struct t name) -> incl D D' -> (forall id, o = Some id -> o' = Some id) ->
  (kle t t' -> body_ok t' D' o' (tb_next t) b) -> inv t' D' o' /\ mono t t'.
Proof.
  intros (T & S) E N B J O Ok. pose proof (new_mono _ _ _ _ T E) as M. pose proof (mono_le _ _ M) as K. split; auto.
  split; [exact (proj1 (new_step _ _ _ _ T E N B))|]. intros id y Y. erewrite new_at in Y; eauto. destruct (Nat.eqb_spec id (tb_next t)) as [->|].
  - injection Y as <-. apply Ok. exact K.
  - exact (body_le t t' D D' o o' id _ K J (O id) (S _ _ Y)).
Qed.
Lemma put_move t f y b D D' o o' : inv t D o -> sym_at t f = Some y -> tidy (put_body t f b) -> up (sy_body y) b -> incl D D' ->
  (forall id, id <> f -> o = Some id -> o' = Some id) -> (kle t (put_body t f b) -> body_ok (put_body t f b) D' o' f b) ->
  inv (put_body t f b) D' o' /\ mono t (put_body t f b).
Proof.
  intros (T & S) Y T' U J O Ok.
  assert (M : mono t (put_body t f b)).
  { intros id z Z. rewrite (sym_at_put _ _ _ _ _ Y). destruct (Nat.eqb_spec id f) as [->|]; [|exists z; split; auto; apply up_refl].
    rewrite Y in Z. injection Z as <-. eexists. split; [reflexivity|exact U]. }
  split; auto. split; auto. intros id z Z. rewrite (sym_at_put _ _ _ _ _ Y) in Z. destruct (Nat.eqb_spec id f) as [->|Ne].
  - injection Z as <-. apply Ok, mono_le, M.
  - exact (body_le _ _ D D' o o' id _ (mono_le _ _ M) J (O id Ne) (S _ _ Z)).
Qed.

(** ** The operations *)
Definition keeps {A} (m : tbl -> cres tbl A) (post : tbl -> A -> Prop) : Prop :=
  forall t a t' D o, m t = COk a t' -> inv t D o -> inv t' D o /\ mono t t' /\ tb_func t' = tb_func t /\ post t' a.

Lemma keeps_intern x : keeps (intern x) (fun _ _ => True).
Proof.
  intros t a t' D o E I. unfold intern in E. destruct (register_string _ _) as [[tab i]| | |]; try discriminate. injection E as _ <-.
  destruct (same_move t (set_strings t tab) D o eq_refl eq_refl I) as (A & B). auto.
Qed.
Lemma prim_live name g t : prim_tag name = Some g -> exists k, kind_of t g = Some k /\ forall g', k <> KNullable g'.
Proof.
  unfold prim_tag. repeat (destruct (text_eqb name _); [intros [= <-]; eexists; split; [reflexivity|discriminate]|]). discriminate.
Qed.
Definition flat (t : tbl) (g : tag) : Prop := exists k, kind_of t g = Some k /\ forall g', k <> KNullable g'.
Lemma flat_live t g : flat t g -> live t g. Proof. intros (k & E & _). exists k. exact E. Qed.
Lemma keeps_tag_from_name x : keeps (tag_from_name x) flat.
Proof.
  intros t a t' D o E I. unfold tag_from_name in E. destruct (prim_tag x) as [g|] eqn:P.
  - injection E as <- <-. split; auto. split; [apply mono_refl|]. split; auto. eapply prim_live; eauto.
  - destruct (find (is_type_named x) (tb_syms t)) as [y|] eqn:F.
    + injection E as <- <-. split; auto. split; [apply mono_refl|]. split; auto. apply find_some in F as (J & Q).
      unfold flat. cbn. rewrite (in_sym_at _ _ (td_unique _ (proj1 I)) J). destruct y as [i n b]. unfold is_type_named in Q. cbn in Q.
      destruct b; try discriminate; eexists; (split; [reflexivity|discriminate]).
    + unfold declare_struct, new_sym in E. cbn in E. injection E as <- <-.
      match goal with |- inv ?u _ _ /\ _ => edestruct (new_move t u) with (b := SyStruct false []) (o' := o) as (A & B) end; [exact I|reflexivity|reflexivity| | | | |].
      * intros d fs [= <- <-]. split; auto. refine (find_none_struct _ _ _ F _). intros y d fs B <-. unfold is_type_named. rewrite B. apply text_eqb_refl'.
      * apply incl_refl.
      * auto.
      * intros _. constructor.
      * split; [exact A|]. split; [exact B|]. split; auto. unfold flat. cbn [kind_of]. erewrite new_at; [|apply I|reflexivity]. rewrite Nat.eqb_refl.
        eexists. split; [reflexivity|discriminate].
Qed.
Lemma keeps_declare_struct x : keeps (declare_struct x true) is_struct.
Proof.
  intros t a t' D o E I. unfold declare_struct in E. destruct (get_struct_tag t x) as [y|] eqn:F.
  - injection E as <- <-. split; auto. split; [apply mono_refl|]. split; auto. apply find_some in F as (J & Q).
    unfold is_struct_named in Q. destruct (sy_body y) eqn:B; try discriminate. exists y, defined, fields. split; auto. apply in_sym_at; auto. apply I.
  - unfold new_sym in E. injection E as <- <-.
    match goal with |- inv ?u _ _ /\ _ => edestruct (new_move t u) with (b := SyStruct false []) (o' := o) as (A & B) end; [exact I|reflexivity|reflexivity| | | | |].
    * intros d fs [= <- <-]. split; auto. refine (find_none_struct _ _ _ F _). intros y d fs B <-. unfold is_struct_named. rewrite B. apply text_eqb_refl'.
    * apply incl_refl.
    * auto.
    * intros _. constructor.
    * split; [exact A|]. split; [exact B|]. split; auto. eexists _, _, _. erewrite new_at; [|apply I|reflexivity]. rewrite Nat.eqb_refl. split; reflexivity.
Qed.
Lemma keeps_nullable g t a t' D o : get_nullable g t = COk a t' -> flat t g -> inv t D o ->
  inv t' D o /\ mono t t' /\ tb_func t' = tb_func t /\ live t' a.
Proof.
  intros E Fl I. unfold get_nullable in E. destruct (find _ _) as [y|] eqn:F.
  - injection E as <- <-. split; auto. split; [apply mono_refl|]. split; auto. apply find_some in F as (J & Q). unfold live. cbn.
    rewrite (in_sym_at _ _ (td_unique _ (proj1 I)) J). destruct y as [i n b]. unfold is_nullable_of in Q. cbn in Q. destruct b; try discriminate. eauto.
  - destruct (tag_name t g) as [n|]; try discriminate. unfold new_sym in E. injection E as <- <-.
    match goal with |- inv ?u _ _ /\ _ => edestruct (new_move t u) with (b := SyNullable g) (o' := o) as (A & B) end; [exact I|reflexivity|reflexivity|discriminate|apply incl_refl|auto| |].
    * intros K. cbn. destruct Fl as (k & Ek & N). destruct (K _ _ Ek) as (k' & Ek' & G). exists k'. split; auto. destruct G as [->|(_ & ->)]; [exact N|discriminate].
    * split; [exact A|]. split; [exact B|]. split; auto. unfold live. cbn [kind_of]. erewrite new_at; [|apply I|reflexivity]. rewrite Nat.eqb_refl. eexists. reflexivity.
Qed.
Lemma keeps_const name c : keeps (declare_const name c) (fun _ _ => True).
Proof.
  intros t a t' D o E I. unfold declare_const in E. apply cbind_ok in E as (r & t1 & E1 & E). apply reference_variable_same in E1. subst t1.
  destruct r; try discriminate. injection E as _ <-.
  match goal with |- inv ?u _ _ /\ _ => edestruct (new_move t u) with (b := SyConst c) (o' := o) as (A & B) end; [exact I|reflexivity|reflexivity|discriminate|apply incl_refl|auto|intros _; exact Logic.I|].
  split; [exact A|]. split; [exact B|]. auto.
Qed.
Lemma keeps_macro name : keeps (bind_macro name) (fun _ _ => True).
Proof.
  intros t a t' D o E I. unfold bind_macro in E. destruct (existsb _ _); try discriminate. injection E as _ <-.
  match goal with |- inv ?u _ _ /\ _ => edestruct (new_move t u) with (b := SyModule) (o' := o) as (A & B) end; [exact I|reflexivity|reflexivity|discriminate|apply incl_refl|auto|intros _; exact Logic.I|].
  split; [exact A|]. split; [exact B|]. auto.
Qed.
Lemma keeps_foreign name args va ret c t u t' D o : bind_function name args va ret c t = COk u t' -> Forall (live t) args -> live t ret -> inv t D o ->
  inv t' D o /\ mono t t' /\ tb_func t' = tb_func t.
Proof.
  intros E La Lr I. unfold bind_function in E. destruct (find _ _); try discriminate. unfold new_sym in E. injection E as _ <-.
  match goal with |- inv ?u _ _ /\ _ => edestruct (new_move t u) with (b := SyForeign (tb_nforeign t) args va ret c) (o' := o) as (A & B) end; [exact I|reflexivity| |discriminate|apply incl_refl|auto| |].
  2: { intros K. cbn. split; [revert La; apply Forall_impl; intros; eapply live_le; eauto|eapply live_le; [exact K|exact Lr]]. }
  2: { split; [exact A|]. split; [exact B|]. auto. }
  reflexivity.
Qed.
Lemma keeps_function name t id t' D : declare_function name t = COk id t' -> inv t D None ->
  inv t' D (Some id) /\ mono t t' /\ tb_func t' = tb_func t /\ is_func t' id.
Proof.
  intros E I. unfold declare_function, new_sym in E. injection E as <- <-.
  match goal with |- inv ?u _ _ /\ _ => edestruct (new_move t u) with (b := SyFunc (tb_nfun t) [] [] None) (o' := Some (tb_next t)) as (A & B) end; [exact I|reflexivity| |discriminate|apply incl_refl|discriminate| |].
  2: { intros _. cbn. split; [|split; auto]; intros [|]; discriminate. }
  2: { split; [exact A|]. split; [exact B|]. split; auto. eexists _, _, _, _, _. erewrite new_at; [|apply I|reflexivity]. rewrite Nat.eqb_refl. split; reflexivity. }
  reflexivity.
Qed.
Lemma keeps_argument n name g t u t' D o : declare_argument n name g t = COk u t' -> live t g -> inv t D o ->
  inv t' D o /\ mono t t' /\ tb_func t' = tb_func t.
Proof.
  intros E L I. destruct (tok_declare_argument _ _ _ _ _ _ E (proj1 I)) as (T' & _). unfold declare_argument in E. destruct (tb_func t) as [f|] eqn:F; try discriminate.
  destruct (sym_at t f) as [[i nm []]|] eqn:Y; try discriminate. destruct (find_index _ _ _); try discriminate. injection E as _ <-.
  pose proof (proj2 I _ _ Y) as (A & B & C). match goal with |- inv (put_body _ _ ?b0) _ _ /\ _ => edestruct (put_move t f) with (b := b0) (o' := o) as (X1 & X2) end; [exact I|exact Y|exact T'| |apply incl_refl|auto| |].
  3: { split; [exact X1|]. split; [exact X2|]. exact F. }
  - cbn. split; [|apply vup_refl]. intros k v V. exists v. split; auto. apply nth_more; auto.
  - intros K. cbn [body_ok]. split; [|split].
    + intros k v V. destruct (lt_dec k (length args)) as [Lt|Ge].
      * rewrite nth_error_app1 in V by lia. destruct (A _ _ V) as (h & Hh & Lh). exists h. split; auto. eapply live_le; [exact K|exact Lh].
      * rewrite nth_error_app2 in V by lia. destruct (k - length args) as [|[|m]]; cbn in V; try discriminate. injection V as <-. exists g. split; auto. eapply live_le; [exact K|exact L].
    + intros k v V. eapply tagged_le; [exact K|apply incl_refl|apply B; exact V].
    + destruct ret; [eapply live_le; [exact K|exact C]|exact C].
Qed.
Lemma keeps_ret f g t u t' D : set_ret f g t = COk u t' -> live t g -> inv t D (Some f) ->
  inv t' D None /\ mono t t' /\ tb_func t' = tb_func t.
Proof.
  intros E L I. destruct (tok_set_ret _ _ _ _ _ E (proj1 I)) as (T' & _). unfold set_ret in E.
  destruct (sym_at t f) as [[i nm []]|] eqn:Y; try discriminate. injection E as _ <-.
  pose proof (proj2 I _ _ Y) as (A & B & C). match goal with |- inv (put_body _ _ ?b0) _ _ /\ _ => edestruct (put_move t f) with (b := b0) (o' := @None nat) as (X1 & X2) end; [exact I|exact Y|exact T'| |apply incl_refl| | |].
  4: { split; [exact X1|]. split; [exact X2|]. reflexivity. }
  - cbn. split; apply vup_refl.
  - intros id Ne [= ->]. congruence.
  - intros K. cbn [body_ok]. split; [|split].
    + intros k v V. destruct (A _ _ V) as (h & Hh & Lh). exists h. split; auto. eapply live_le; [exact K|exact Lh].
    + intros k v V. eapply tagged_le; [exact K|apply incl_refl|apply B; exact V].
    + eapply live_le; [exact K|exact L].
Qed.
Lemma keeps_close : keeps close_scope (fun _ _ => True).
Proof.
  intros t u t' D o E I. unfold close_scope in E. destruct (tb_func t) as [f|] eqn:F.
  - destruct (sym_at t f) as [[i nm []]|] eqn:Y; try discriminate. injection E as _ <-.
    pose proof (proj2 I _ _ Y) as (A & B & C).
    assert (N : forall k v, nth_error (map (end_scope (tb_scope t)) locals) k = Some v -> exists w, nth_error locals k = Some w /\ lv_tag v = lv_tag w).
    { intros k v V. rewrite nth_error_map in V. destruct (nth_error locals k) as [w|]; try discriminate. exists w. split; auto. cbn in V. injection V as <-.
      unfold end_scope. destruct (_ =? _); auto. }
    edestruct (put_move t f) with (b := SyFunc index args (map (end_scope (tb_scope t)) locals) ret) (o' := o) as (X1 & X2); [exact I|exact Y| | |apply incl_refl|auto| |].
    4: { destruct (same_move (put_body t f (SyFunc index args (map (end_scope (tb_scope t)) locals) ret))
           (set_scope (put_body t f (SyFunc index args (map (end_scope (tb_scope t)) locals) ret)) (pred (tb_scope t))) D o eq_refl eq_refl X1) as (Z1 & Z2).
         split; [exact Z1|]. split; [eapply mono_trans; eauto|]. split; [exact F|exact Logic.I]. }
    + eapply put_func; eauto; [apply I|]. intros k v V. rewrite nth_error_map, V. cbn. eexists. split; [reflexivity|]. unfold end_scope. destruct (_ =? _); auto.
    + cbn. split; [apply vup_refl|]. intros k v V. rewrite nth_error_map, V. cbn. eexists. split; [reflexivity|]. unfold end_scope. destruct (_ =? _); auto.
    + intros K. cbn [body_ok]. split; [|split].
      * intros k v V. destruct (A _ _ V) as (h & Hh & Lh). exists h. split; auto. eapply live_le; [exact K|exact Lh].
      * intros k v V. destruct (N _ _ V) as (w & W & ->). eapply tagged_le; [exact K|apply incl_refl|apply B; exact W].
      * destruct ret; [eapply live_le; [exact K|exact C]|exact C].
  - injection E as _ <-. destruct (same_move t (set_scope t (pred (tb_scope t))) D o eq_refl eq_refl I) as (Z1 & Z2). auto.
Qed.
Lemma keeps_global name t r t' D : declare_global name t = COk r t' -> inv t D None ->
  inv t' (D ++ [r]) None /\ mono t t' /\ tb_func t' = tb_func t /\ is_var t' r /\ forall id, r <> RConst id.
Proof.
  intros E I. unfold declare_global in E. apply cbind_ok in E as (q & t1 & E1 & E). apply reference_variable_same in E1. subst t1.
  assert (X : (let '(id, t1) := new_sym t name (SyGlobal (tb_nglob t) false None) in
      COk (RGlobal id) (set_nglob t1 (S (tb_nglob t)))) = COk r t') by (destruct q as [[]|]; auto; discriminate).
  clear E. unfold new_sym in X. injection X as <- <-.
  match goal with |- inv ?u _ _ /\ _ => edestruct (new_move t u) with (b := SyGlobal (tb_nglob t) false None) (o' := @None nat) (D' := D ++ [RGlobal (tb_next t)]) as (A & B) end;
    [exact I|reflexivity| |discriminate|intros x J; apply in_or_app; auto|discriminate| |].
  2: { intros _. cbn. apply in_or_app. right. left. reflexivity. }
  2: { split; [exact A|]. split; [exact B|]. split; auto. split; [|discriminate]. unfold is_var, vtag. cbn [ref_sym]. erewrite new_at; [|apply I|reflexivity]. rewrite Nat.eqb_refl. discriminate. }
  reflexivity.
Qed.
Lemma keeps_local name t r t' D : declare_local name t = COk r t' -> inv t D None ->
  inv t' (D ++ [r]) None /\ mono t t' /\ tb_func t' = tb_func t /\ is_var t' r /\ forall id, r <> RConst id.
Proof.
  intros E I. destruct (declare_local_step _ _ _ _ E (proj1 I)) as (T' & _). unfold declare_local in E. destruct (tb_func t) as [f|] eqn:F; try discriminate.
  destruct (sym_at t f) as [[i nm []]|] eqn:Y; try discriminate. destruct (find_index _ _ _); try discriminate. injection E as <- <-.
  pose proof (proj2 I _ _ Y) as (A & B & C). match goal with |- inv (put_body _ _ ?b0) _ _ /\ _ => edestruct (put_move t f) with (b := b0) (o' := @None nat) (D' := D ++ [RLocal f (length locals)]) as (X1 & X2) end; [exact I|exact Y|exact T'| | | | |].
  5: { split; [exact X1|]. split; [exact X2|]. split; [exact F|]. split; [|discriminate]. unfold is_var, vtag. cbn [ref_sym]. rewrite (sym_at_put _ _ _ _ _ Y), Nat.eqb_refl. cbn [sy_body vt].
       rewrite nth_error_app2, Nat.sub_diag by lia. discriminate. }
  - cbn. split; [apply vup_refl|]. intros k v V. exists v. split; auto. apply nth_more; auto.
  - intros x J; apply in_or_app; auto.
  - auto.
  - intros K. cbn [body_ok]. split; [|split].
    + intros k v V. destruct (A _ _ V) as (h & Hh & Lh). exists h. split; auto. eapply live_le; [exact K|exact Lh].
    + intros k v V. destruct (lt_dec k (length locals)) as [Lt|Ge].
      * rewrite nth_error_app1 in V by lia. eapply tagged_le; [exact K|intros x J; apply in_or_app; left; exact J|apply B; exact V].
      * rewrite nth_error_app2 in V by lia. destruct (k - length locals) as [|[|m]] eqn:Ek; cbn in V; try discriminate. injection V as <-. cbn.
        apply in_or_app. right. left. f_equal. lia.
    + destruct ret; [eapply live_le; [exact K|exact C]|exact C].
Qed.
Lemma var_update_ok vs i v g : nth_error vs i = Some v -> vup vs (update vs i (lv_set_tag g v)) .
Proof.
  intros V k w W. destruct (Nat.eq_dec i k) as [<-|N].
  - eexists. split; [apply nth_error_update_eq, nth_error_Some; congruence|]. discriminate.
  - exists w. rewrite nth_error_update_ne; auto.
Qed.
Lemma keeps_set_tag r g t u t' D o : set_var_tag r g t = COk u t' -> live t g -> inv t D o ->
  inv t' D o /\ mono t t' /\ tb_func t' = tb_func t /\ knows t' r.
Proof.
  intros E L I. destruct (set_tag_step _ _ _ _ _ E (proj1 I)) as (T' & _ & V' & _). assert (Kn : knows t' r) by (exists g; exact V').
  unfold set_var_tag in E. destruct r as [id|id|f i|f i]; try discriminate.
  - destruct (sym_at t id) as [[k nm []]|] eqn:Y; try discriminate. injection E as _ <-. pose proof (proj2 I _ _ Y) as A. cbn in A.
    match goal with |- inv (put_body _ _ ?b0) _ _ /\ _ => edestruct (put_move t id) with (b := b0) (o' := o) as (X1 & X2) end; [exact I|exact Y|exact T'| |apply incl_refl|auto| |].
    3: { split; [exact X1|]. split; [exact X2|]. split; [reflexivity|exact Kn]. }
    + cbn. discriminate.
    + intros K. cbn. eapply live_le; eauto.
  - cbn in E. destruct (sym_at t f) as [[k nm []]|] eqn:Y; try discriminate. destruct (nth_error locals i) as [v|] eqn:V; try discriminate. injection E as _ <-.
    pose proof (proj2 I _ _ Y) as (A & B & C). match goal with |- inv (put_body _ _ ?b0) _ _ /\ _ => edestruct (put_move t f) with (b := b0) (o' := o) as (X1 & X2) end; [exact I|exact Y|exact T'| |apply incl_refl|auto| |].
    3: { split; [exact X1|]. split; [exact X2|]. split; [reflexivity|exact Kn]. }
    + cbn. split; [apply vup_refl|]. eapply var_update_ok; eauto.
    + intros K. cbn [body_ok]. split; [|split].
      * intros j w W. destruct (A _ _ W) as (h & Hh & Lh). exists h. split; auto. eapply live_le; [exact K|exact Lh].
      * intros j w W. destruct (Nat.eq_dec i j) as [<-|N].
        -- rewrite nth_error_update_eq in W by (apply nth_error_Some; congruence). injection W as <-. cbn. eapply live_le; eauto.
        -- rewrite nth_error_update_ne in W by auto. eapply tagged_le; [exact K|apply incl_refl|apply B; exact W].
      * destruct ret; [eapply live_le; [exact K|exact C]|exact C].
  - cbn in E. destruct (sym_at t f) as [[k nm []]|] eqn:Y; try discriminate. destruct (nth_error args i) as [v|] eqn:V; try discriminate. injection E as _ <-.
    pose proof (proj2 I _ _ Y) as (A & B & C). match goal with |- inv (put_body _ _ ?b0) _ _ /\ _ => edestruct (put_move t f) with (b := b0) (o' := o) as (X1 & X2) end; [exact I|exact Y|exact T'| |apply incl_refl|auto| |].
    3: { split; [exact X1|]. split; [exact X2|]. split; [reflexivity|exact Kn]. }
    + cbn. split; [|apply vup_refl]. eapply var_update_ok; eauto.
    + intros K. cbn [body_ok]. split; [|split].
      * intros j w W. destruct (Nat.eq_dec i j) as [<-|N].
        -- rewrite nth_error_update_eq in W by (apply nth_error_Some; congruence). injection W as <-. exists g. split; auto. eapply live_le; eauto.
        -- rewrite nth_error_update_ne in W by auto. destruct (A _ _ W) as (h & Hh & Lh). exists h. split; auto. eapply live_le; [exact K|exact Lh].
      * intros j w W. eapply tagged_le; [exact K|apply incl_refl|apply B; exact W].
      * destruct ret; [eapply live_le; [exact K|exact C]|exact C].
Qed.
(** What a name refers to is a variable, whose type is known or expected *)
Definition ok_ref (t : tbl) (D : list vref) (r : vref) : Prop := knows t r \/ In r D.
Lemma find_index_nth {A} (p : A -> bool) l : forall j i, find_index p l j = Some i -> exists x, nth_error l (i - j) = Some x /\ j <= i.
Proof.
  induction l as [|x l IH]; intros j i E; cbn in E; [discriminate|]. destruct (p x).
  - injection E as ->. exists x. rewrite Nat.sub_diag. auto.
  - destruct (IH _ _ E) as (y & N & L). exists y. replace (i - j) with (S (i - S j)) by lia. split; auto. lia.
Qed.
Lemma reference_ok name t r t' D o : reference_variable name t = COk (Some r) t' -> inv t D o -> ok_ref t D r.
Proof.
  intros E (T & S). unfold reference_variable in E.
  assert (Gl : global_ref t name = Some r -> ok_ref t D r).
  { unfold global_ref. destruct (find _ _) as [y|] eqn:F; try discriminate. cbn. intros [= <-]. apply find_some in F as (J & Q).
    pose proof (in_sym_at _ _ (td_unique _ T) J) as Y. pose proof (S _ _ Y) as B. destruct y as [i n b]. unfold is_value_sym in Q. unfold value_ref. cbn in *.
    destruct b; try discriminate; cbn in B |- *.
    - unfold ok_ref, knows, vtag. cbn [ref_sym]. rewrite Y. cbn. destruct t0 as [g|]; [left; exists g; reflexivity|right; exact B].
    - left. unfold knows, vtag. cbn [ref_sym]. rewrite Y. cbn. eauto. }
  destruct (tb_func t) as [f|]; [|injection E as E _; auto].
  destruct (sym_at t f) as [[i n []]|] eqn:Y; try discriminate. pose proof (S _ _ Y) as (A & B & _).
  destruct (find_index _ locals 0) as [k|] eqn:F.
  - injection E as <- _. apply find_index_nth in F as (v & V & _). rewrite Nat.sub_0_r in V. specialize (B _ _ V).
    unfold ok_ref, knows, vtag. cbn [ref_sym]. rewrite Y. cbn. rewrite V. cbn. destruct (lv_tag v) as [g|]; [left; exists g; reflexivity|right; exact B].
  - destruct (find_index _ args 0) as [k|] eqn:F2; [|injection E as E _; auto].
    injection E as <- _. apply find_index_nth in F2 as (v & V & _). rewrite Nat.sub_0_r in V. destruct (A _ _ V) as (g & G & _).
    left. unfold knows, vtag. cbn [ref_sym]. rewrite Y. cbn. rewrite V. cbn. rewrite G. eauto.
Qed.
