(** * What a compile leaves alone in the symbol table, even when it fails

    [t0] is the table before; [base t] says that [t] has all its symbols, in the
    same order and unchanged up to [kept], and that everything else in [t] is
    new.  Every operation of the parser, the resolver and the host API preserves
    [base], whether it succeeds or reports an error. *)
From Verif Require Import Base Token Lexer Values Strings Syntax Symbols Parser Resolve Compile Layout CompileProofs Host TableInv ParserInv LayTable.
Local Open Scope nat_scope.
Local Open Scope cm_scope.

(** Success and compile errors preserve [W]; results satisfy [Q]. *)
Definition ke {S A} (W : S -> Prop) (m : S -> cres S A) (Q : A -> Prop) : Prop :=
  forall s, W s -> match m s with COk a s' => W s' /\ Q a | CFail s' => W s' | _ => True end.
Definition any {A} (_ : A) : Prop := True.

Lemma ke_bind {S A B} (W : S -> Prop) (m : S -> cres S A) (f : A -> S -> cres S B) Q Q' :
  ke W m Q -> (forall a, Q a -> ke W (f a) Q') -> ke W (cbind m f) Q'.
Proof. intros M F s w. unfold cbind. specialize (M s w). destruct (m s); auto. destruct M as (w' & q). exact (F _ q _ w'). Qed.
Lemma ke_bind0 {S A B} (W : S -> Prop) (m : S -> cres S A) (f : A -> S -> cres S B) Q' :
  ke W m any -> (forall a, ke W (f a) Q') -> ke W (cbind m f) Q'.
Proof. intros M F. eapply ke_bind; [exact M|]. intros a _. apply F. Qed.
Lemma ke_ret {S A} (W : S -> Prop) (a : A) (Q : A -> Prop) : Q a -> ke W (cret a) Q.
Proof. intros q s w. cbn. auto. Qed.
Lemma ke_fail {S A} (W : S -> Prop) (Q : A -> Prop) : ke W cfail Q.
Proof. intros s w. exact w. Qed.
Lemma ke_abort {S A} (W : S -> Prop) (Q : A -> Prop) : ke W cabort Q.
Proof. intros s w. exact I. Qed.
Lemma ke_ub {S A} (W : S -> Prop) (Q : A -> Prop) : ke W cub Q.
Proof. intros s w. exact I. Qed.
Lemma ke_get {S} (W : S -> Prop) : ke W cget W.
Proof. intros s w. cbn. auto. Qed.
Lemma ke_weak {S A} (W : S -> Prop) (m : S -> cres S A) (Q Q' : A -> Prop) : ke W m Q -> (forall a, Q a -> Q' a) -> ke W m Q'.
Proof. intros M E s w. specialize (M s w). destruct (m s); auto. destruct M; auto. Qed.
Lemma ke_any {S A} (W : S -> Prop) (m : S -> cres S A) (Q : A -> Prop) : ke W m Q -> ke W m any.
Proof. intros M. eapply ke_weak; [exact M|]. intros; exact I. Qed.
Lemma ke_fuel {S A} (W : S -> Prop) (Q : A -> Prop) : ke W (fun _ => CFuel) Q.
Proof. intros s w. exact I. Qed.

Section Base.
Variable t0 : tbl.
Notation b := (tb_next t0).
Hypothesis Ids : Forall (fun y => sy_id y < b) (tb_syms t0).
Hypothesis Nd : NoDup (map sy_id (tb_syms t0)).

(** A symbol and what it may have become: the same, but a variable may have been
    initialised and a struct that was only mentioned may have been defined or
    become a host type. *)
Definition kept_body (x y : symbody) : Prop :=
  x = y \/
  match x, y with
  | SyGlobal i _ g, SyGlobal i' _ g' => i = i' /\ g = g'
  | SyStruct false _, SyStruct _ _ => True
  | SyStruct false _, SyForeignTag => True
  | _, _ => False
  end.
Definition kept (x y : sym) : Prop := sy_id y = sy_id x /\ sy_name y = sy_name x /\ kept_body (sy_body x) (sy_body y).

Definition new_body (x : symbody) : Prop :=
  match x with SyFunc i _ _ _ => tb_nfun t0 <= i | SyForeign i _ _ _ _ => tb_nforeign t0 <= i | _ => True end.
Definition newer (y : sym) : Prop := b <= sy_id y /\ new_body (sy_body y).

Record base (t : tbl) : Prop := mkBase {
  bs_syms : exists l1 l2, tb_syms t = l1 ++ l2 /\ Forall2 kept (tb_syms t0) l1 /\ Forall newer l2;
  bs_next : b <= tb_next t;
  bs_strings : exists x, tb_strings t = tb_strings t0 ++ x;
  bs_nglob : tb_nglob t0 <= tb_nglob t;
  bs_nfun : tb_nfun t0 <= tb_nfun t;
  bs_nforeign : tb_nforeign t0 <= tb_nforeign t;
  bs_func : match tb_func t with Some f => b <= f | None => True end
}.

Lemma kept_refl y : kept y y.
Proof. split; [|split]; auto. left. reflexivity. Qed.
Lemma base_refl : tb_func t0 = None -> base t0.
Proof.
  intros F. constructor; auto.
  - exists (tb_syms t0), []. rewrite app_nil_r. split; auto. split; auto. clear. induction (tb_syms t0); constructor; auto. apply kept_refl.
  - exists []. rewrite app_nil_r. auto.
  - rewrite F. exact I.
Qed.

Lemma kept_ids l l' : Forall2 kept l l' -> map sy_id l' = map sy_id l.
Proof. induction 1 as [|x y l l' K F IH]; cbn; auto. destruct K as (-> & _). congruence. Qed.
Lemma old_ids l1 : Forall2 kept (tb_syms t0) l1 -> Forall (fun y => sy_id y < b) l1.
Proof.
  intros F. apply Forall_forall. intros y I0. apply (in_map sy_id) in I0. rewrite (kept_ids _ _ F) in I0. apply in_map_iff in I0 as (x & <- & I0).
  exact (proj1 (Forall_forall _ _) Ids _ I0).
Qed.

Lemma at_new t id y : base t -> b <= id -> sym_at t id = Some y -> newer y.
Proof.
  intros [(l1 & l2 & E & K & N) _ _ _ _ _ _] L A. unfold sym_at in A. apply find_some in A as (I1 & I2). apply Nat.eqb_eq in I2.
  rewrite E in I1. apply in_app_iff in I1 as [I1|I1]; [|exact (proj1 (Forall_forall _ _) N _ I1)].
  pose proof (proj1 (Forall_forall _ _) (old_ids _ K) _ I1). cbn in H. lia.
Qed.

Lemma kept_map (g : sym -> sym) l l' : Forall2 kept l l' -> (forall x0 z, In x0 l -> In z l' -> kept x0 z -> kept x0 (g z)) -> Forall2 kept l (map g l').
Proof.
  induction 1 as [|x0 z l l' K F IH]; intros G; cbn; constructor.
  - apply G; [left|left|]; auto.
  - apply IH. intros. apply G; auto; right; auto.
Qed.

(** Replacing the body of a symbol *)
Lemma base_put t id y x : base t -> sym_at t id = Some y -> (b <= id -> new_body x) ->
  (forall x0, id < b -> In x0 (tb_syms t0) -> sy_id x0 = id -> kept_body (sy_body x0) (sy_body y) -> kept_body (sy_body x0) x) -> base (put_body t id x).
Proof.
  intros [(l1 & l2 & E & K & N) B1 B2 B3 B4 B5 B6] Y Hn Ho. constructor; auto. cbn [put_body set_syms tb_syms]. rewrite E, map_app.
  set (g := fun s => if sy_id s =? id then mkSym id (sy_name s) x else s).
  exists (map g l1), (map g l2). split; auto. split.
  - apply kept_map; auto. intros x0 z I0 Iz Kz. unfold g. destruct (Nat.eqb_spec (sy_id z) id) as [Ez|]; auto.
    pose proof Kz as (K1 & K2 & K3). split; [cbn; congruence|]. split; [exact K2|]. cbn [sy_body].
    assert (Lz : sy_id z < b) by exact (proj1 (Forall_forall _ _) (old_ids _ K) _ Iz).
    assert (z = y); [|subst z; apply (Ho x0); auto; congruence].
    unfold sym_at in Y. apply find_some in Y as (I1 & I2). apply Nat.eqb_eq in I2. rewrite E in I1. apply in_app_iff in I1 as [I1|I1].
    + pose proof Nd as Nd'. rewrite <- (kept_ids _ _ K) in Nd'. clear - Nd' Iz I1 Ez I2. induction l1 as [|a l IH]; [contradiction|].
      cbn in Nd'. apply NoDup_cons_iff in Nd' as (N1 & N2). destruct Iz as [<-|Iz], I1 as [<-|I1]; auto.
      * exfalso. apply N1. rewrite Ez, <- I2. apply in_map. auto.
      * exfalso. apply N1. rewrite I2, <- Ez. apply in_map. auto.
    + pose proof (proj1 (Forall_forall _ _) N _ I1) as (Q & _). lia.
  - apply Forall_map. eapply Forall_impl; [|exact N]. intros z (N1 & N2). unfold g. destruct (Nat.eqb_spec (sy_id z) id) as [<-|]; split; auto.
Qed.

(** An old structure with this identity was only mentioned *)
Definition open_id (id : nat) : Prop := forall x0, In x0 (tb_syms t0) -> sy_id x0 = id -> exists fs, sy_body x0 = SyStruct false fs.
Lemma open_new id : b <= id -> open_id id.
Proof. intros L x0 I0 E. pose proof (proj1 (Forall_forall _ _) Ids _ I0) as Q. cbn in Q. lia. Qed.
Lemma kept_pair l l' x y : Forall2 kept l l' -> NoDup (map sy_id l) -> In x l -> In y l' -> sy_id y = sy_id x -> kept x y.
Proof.
  intros K. induction K as [|a c l l' Ka K IH]; intros N I0 I1 E; [contradiction|].
  cbn in N. apply NoDup_cons_iff in N as (N1 & N2). destruct I0 as [<-|I0], I1 as [<-|I1]; auto.
  - exfalso. apply N1. rewrite <- E, <- (kept_ids _ _ K). apply in_map. auto.
  - exfalso. apply N1. destruct Ka as (<- & _). rewrite E. apply in_map. auto.
Qed.
Lemma at_old t id y : base t -> sym_at t id = Some y -> id < b -> forall x0, In x0 (tb_syms t0) -> sy_id x0 = id -> kept x0 y.
Proof.
  intros [(l1 & l2 & E & K & N) _ _ _ _ _ _] Y L x0 I0 E0. unfold sym_at in Y. apply find_some in Y as (I1 & I2). apply Nat.eqb_eq in I2.
  rewrite E in I1. apply in_app_iff in I1 as [I1|I1]; [|pose proof (proj1 (Forall_forall _ _) N _ I1) as (Q & _); lia].
  apply (kept_pair _ _ _ _ K); auto. congruence.
Qed.
Lemma open_at t id i n fs : base t -> sym_at t id = Some (mkSym i n (SyStruct false fs)) -> open_id id.
Proof.
  intros B Y x0 I0 E0. pose proof (proj1 (Forall_forall _ _) Ids _ I0) as Q. cbn in Q.
  destruct (at_old _ _ _ B Y ltac:(lia) _ I0 E0) as (_ & _ & [Kb|Kb]); cbn [sy_body] in Kb; [eauto|].
  destruct (sy_body x0) as [| | | |[]| | |]; try contradiction. eauto.
Qed.

(** Adding a symbol *)
Lemma base_new t n x : base t -> new_body x -> base (snd (new_sym t n x)) /\ b <= fst (new_sym t n x).
Proof.
  intros [(l1 & l2 & E & K & N) B1 B2 B3 B4 B5 B6] Nx. split; [|exact B1]. constructor; auto; [|cbn; lia].
  cbn. rewrite E, <- app_assoc. exists l1, (l2 ++ [mkSym (tb_next t) n x]). split; auto. split; auto. apply Forall_app. split; auto.
  constructor; [|constructor]. split; auto.
Qed.
Lemma base_scope t n : base t -> base (set_scope t n).
Proof. intros [B0 B1 B2 B3 B4 B5 B6]. constructor; auto. Qed.
Lemma base_func t f : base t -> match f with Some f => b <= f | None => True end -> base (set_func t f).
Proof. intros [B0 B1 B2 B3 B4 B5 B6] F. constructor; auto. Qed.

(** ** The operations of the table *)
Definition ref_new (r : vref) : Prop := match r with RLocal f _ | RArg f _ => b <= f | _ => True end.
Definition decl_new (r : vref) : Prop := match r with RLocal f _ | RArg f _ => b <= f | RGlobal id => b <= id | RConst _ => True end.
Definition ref_new_opt (o : option vref) : Prop := match o with Some r => ref_new r | None => True end.

Lemma put_fun t f y x : base t -> b <= f -> sym_at t f = Some y ->
  (forall i a l r, x = SyFunc i a l r -> exists a' l' r', sy_body y = SyFunc i a' l' r') -> (exists i a l r, x = SyFunc i a l r) -> base (put_body t f x).
Proof.
  intros B L Y H (i & a & l & r & ->). apply (base_put t f y); auto; [|intros; lia]. intros _. destruct (H _ _ _ _ eq_refl) as (a' & l' & r' & E).
  pose proof (at_new _ _ _ B L Y) as (_ & Q). rewrite E in Q. exact Q.
Qed.

Lemma ke_close : ke base close_scope any.
Proof.
  intros t B. unfold close_scope. destruct (tb_func t) as [f|] eqn:F.
  - pose proof (bs_func _ B) as L. rewrite F in L. destruct (sym_at t f) as [[i n []]|] eqn:Y; auto. split; [|exact I].
    apply base_scope. eapply put_fun; eauto. cbn [sy_body]. intros ? ? ? ? [= <- _ _ _]. eauto.
  - split; [|exact I]. apply base_scope. auto.
Qed.
Lemma ke_reference n : ke base (reference_variable n) ref_new_opt.
Proof.
  intros t B. unfold reference_variable.
  assert (G : ref_new_opt (global_ref t n)).
  { unfold global_ref. destruct (find _ _) as [[i nm []]|]; exact I. }
  destruct (tb_func t) as [f|] eqn:F; auto. pose proof (bs_func _ B) as L. rewrite F in L.
  destruct (sym_at t f) as [[i nm []]|] eqn:Y; auto. destruct (find_index _ locals 0); auto. destruct (find_index _ args 0); auto.
Qed.
Lemma base_nglob t n : base t -> tb_nglob t0 <= n -> base (set_nglob t n).
Proof. intros [B0 B1 B2 B3 B4 B5 B6] L. constructor; auto. Qed.
Lemma base_nfun t n : base t -> tb_nfun t0 <= n -> base (set_nfun t n).
Proof. intros [B0 B1 B2 B3 B4 B5 B6] L. constructor; auto. Qed.
Lemma base_nforeign t n : base t -> tb_nforeign t0 <= n -> base (set_nforeign t n).
Proof. intros [B0 B1 B2 B3 B4 B5 B6] L. constructor; auto. Qed.

Lemma ke_declare_global n : ke base (declare_global n) decl_new.
Proof.
  unfold declare_global. eapply ke_bind0; [eapply ke_any, ke_reference|]. intros r.
  assert (X : ke base (fun t => let '(id, t1) := new_sym t n (SyGlobal (tb_nglob t) false None) in COk (RGlobal id) (set_nglob t1 (S (tb_nglob t)))) decl_new).
  { intros t B. cbn. destruct (base_new t n (SyGlobal (tb_nglob t) false None) B I) as (B1 & L). split; [|exact L].
    apply (base_nglob (snd (new_sym t n (SyGlobal (tb_nglob t) false None)))); auto. pose proof (bs_nglob _ B). lia. }
  destruct r as [[]|]; auto using ke_fail.
Qed.
Lemma ke_declare_argument k n g : ke base (declare_argument k n g) any.
Proof.
  intros t B. unfold declare_argument. destruct (tb_func t) as [f|] eqn:F; auto. pose proof (bs_func _ B) as L. rewrite F in L.
  destruct (sym_at t f) as [[i nm []]|] eqn:Y; auto. destruct (find_index _ args 0); auto. split; [|exact I].
  eapply put_fun; eauto. cbn [sy_body]. intros ? ? ? ? [= <- _ _ _]. eauto.
Qed.
Lemma ke_declare_local n : ke base (declare_local n) decl_new.
Proof.
  intros t B. unfold declare_local. destruct (tb_func t) as [f|] eqn:F; auto. pose proof (bs_func _ B) as L. rewrite F in L.
  destruct (sym_at t f) as [[i nm []]|] eqn:Y; auto. destruct (find_index _ locals 0); auto. split; [|exact L].
  eapply put_fun; eauto. cbn [sy_body]. intros ? ? ? ? [= <- _ _ _]. eauto.
Qed.
Lemma ke_declare_const n c : ke base (declare_const n c) any.
Proof.
  unfold declare_const. eapply ke_bind0; [eapply ke_any, ke_reference|]. intros [r|]; [apply ke_fail|].
  intros t B. split; [|exact I]. apply base_new; auto. exact I.
Qed.
Lemma ke_declare_function n : ke base (declare_function n) (fun f => b <= f).
Proof.
  intros t B. cbn. destruct (base_new t n (SyFunc (tb_nfun t) [] [] None) B (bs_nfun _ B)) as (B1 & L). split; [|exact L].
  apply (base_nfun (snd (new_sym t n (SyFunc (tb_nfun t) [] [] None)))); auto. pose proof (bs_nfun _ B). lia.
Qed.
Lemma ke_bind_function n a v r c : ke base (bind_function n a v r c) any.
Proof.
  intros t B. unfold bind_function. destruct (find _ _); auto. cbn.
  destruct (base_new t n (SyForeign (tb_nforeign t) a v r c) B (bs_nforeign _ B)) as (B1 & L). split; [|exact I].
  apply (base_nforeign (snd (new_sym t n (SyForeign (tb_nforeign t) a v r c)))); auto. pose proof (bs_nforeign _ B). lia.
Qed.
Lemma ke_intern x : ke base (intern x) any.
Proof.
  intros t B. unfold intern. destruct (register_string (tb_strings t) x) as [[tab i]| | |] eqn:E; auto. split; [|exact I].
  destruct B as [B0 B1 (w & B2) B3 B4 B5 B6]. constructor; auto. cbn [set_strings tb_strings].
  assert (P : exists w', tab = tb_strings t ++ w').
  { unfold register_string in E. destruct (find_string _ _ _) as [j|] eqn:Fs; [injection E as <- _; exists []; rewrite app_nil_r; auto|].
    destruct (_ <? _) eqn:L in E; try discriminate. injection E as <- _. eauto. }
  destruct P as (w' & ->). exists (w ++ w'). rewrite B2, app_assoc. auto.
Qed.
Lemma ke_declare_struct n s : ke base (declare_struct n s) any.
Proof.
  intros t B. unfold declare_struct. destruct (if s then _ else _); [split; [auto|exact I]|]. split; [|exact I].
  apply (base_new t n (SyStruct false [])); auto. exact I.
Qed.
Lemma ke_tag_from_name n : ke base (tag_from_name n) any.
Proof.
  intros t B. unfold tag_from_name. destruct (prim_tag n); [split; [auto|exact I]|]. destruct (find _ _); [split; [auto|exact I]|].
  pose proof (ke_declare_struct n false t B) as D. destruct (declare_struct n false t); auto.
Qed.
Lemma ke_get_nullable g : ke base (get_nullable g) any.
Proof.
  intros t B. unfold get_nullable. destruct (find _ _); [split; [auto|exact I]|]. destruct (tag_name t g); auto. split; [|exact I].
  apply (base_new t _ (SyNullable g)); auto. exact I.
Qed.
Lemma base_put_var t r g t' : base t -> ref_new r -> put_var t r g = Some t' -> base t'.
Proof.
  intros B R E. destruct r as [id|id|f k|f k]; try discriminate; cbn in *; destruct (sym_at t f) as [[i n []]|] eqn:Y; try discriminate;
    destruct (nth_error _ k); try discriminate; injection E as <-; eapply put_fun; eauto; cbn [sy_body]; intros ? ? ? ? [= <- _ _ _]; eauto.
Qed.
Lemma ke_set_var_tag r g : decl_new r -> ke base (set_var_tag r g) any.
Proof.
  intros R t B. unfold set_var_tag. destruct r as [id|id|f k|f k]; auto.
  - cbn in R. destruct (sym_at t id) as [[i n []]|] eqn:Y; auto. split; [|exact I]. apply (base_put _ _ _ _ B Y); [intros; exact I|intros; lia].
  - destruct (put_var t _ _) eqn:E; auto. split; [|exact I]. eapply base_put_var; eauto; exact R.
  - destruct (put_var t _ _) eqn:E; auto. split; [|exact I]. eapply base_put_var; eauto; exact R.
Qed.
Lemma ke_set_var_init r : ref_new r -> ke base (set_var_init r) any.
Proof.
  intros R t B. unfold set_var_init. destruct r as [id|id|f k|f k]; auto.
  - destruct (sym_at t id) as [[i n []]|] eqn:Y; auto. split; [|exact I]. apply (base_put _ _ _ _ B Y); [intros; exact I|].
    cbn [sy_body]. intros x0 _ _ _ [->|K]; [right; cbn; auto|]. right. destruct (sy_body x0) as [| | | |[]| | |]; try contradiction. exact K.
  - destruct (put_var t _ _) eqn:E; auto. split; [|exact I]. eapply base_put_var; eauto; exact R.
  - destruct (put_var t _ _) eqn:E; auto. split; [|exact I]. eapply base_put_var; eauto; exact R.
Qed.
Lemma ke_set_ret f g : b <= f -> ke base (set_ret f g) any.
Proof.
  intros L t B. unfold set_ret. destruct (sym_at t f) as [[i n []]|] eqn:Y; auto. split; [|exact I].
  eapply put_fun; eauto. cbn [sy_body]. intros ? ? ? ? [= <- _ _ _]. eauto.
Qed.
Lemma ke_put_field id nm g : open_id id -> ke base (fun t0 =>
                       match sym_at t0 id with
                       | Some (mkSym _ _ (SyStruct d fs0)) =>
                           COk tt (put_body t0 id (SyStruct d (fs0 ++ [mkField nm g])))
                       | _ => CUB
                       end) any.
Proof.
  intros O t B. destruct (sym_at t id) as [[i n []]|] eqn:Y; auto. split; [|exact I]. apply (base_put _ _ _ _ B Y); [intros; exact I|].
  intros x0 _ I0 E0 _. destruct (O x0 I0 E0) as (fs & ->). right. exact I.
Qed.

(** ** The parser *)
Notation W := (fun s : pst => base (ps_tbl s)).
Definition kp {A} (m : pm A) (Q : A -> Prop) : Prop := ke W m Q.

Lemma kp_tbl {A} (m : tbl -> cres tbl A) Q : ke base m Q -> kp (on_tbl m) Q.
Proof. intros M s w. unfold on_tbl. specialize (M _ w). destruct (m (ps_tbl s)); auto. Qed.
Lemma kp_mod f : (forall t, base t -> base (f t)) -> kp (mod_tbl f) any.
Proof. intros M. apply kp_tbl. intros t B. split; [auto|exact I]. Qed.
Lemma kp_the_tbl : kp the_tbl base.
Proof. apply kp_tbl. intros t B. cbn. auto. Qed.
Lemma kp_next : kp next_token any.
Proof. intros s w. unfold next_token. destruct (ps_toks s); [destruct (ps_end s)|]; auto; split; auto; exact I. Qed.
Lemma kp_last : kp last_tok any.
Proof. intros s w. split; auto; exact I. Qed.
Lemma kp_line : kp the_line any.
Proof. intros s w. split; auto; exact I. Qed.
Lemma kp_int : kp the_int any.
Proof. intros s w. split; auto; exact I. Qed.
Lemma kp_lexeme : kp lexeme any.
Proof. intros s w. unfold lexeme. destruct (tk_lexeme _); auto. split; auto; exact I. Qed.
Lemma kp_if {A} (c : bool) (m m' : pm A) Q : kp m Q -> kp m' Q -> kp (if c then m else m') Q.
Proof. destruct c; auto. Qed.
Lemma kp_expect k : kp (expect k) any.
Proof. unfold expect. eapply ke_bind0; [apply kp_last|]. intros t. apply kp_if; [apply ke_ret; exact I|apply ke_fail]. Qed.
Lemma kp_get_expect k : kp (get_expect k) any.
Proof. unfold get_expect. eapply ke_bind0; [apply kp_next|]. intros _. apply kp_expect. Qed.
Lemma kp_reader {A B} (Q : A -> Prop) (g : pst -> B) (f : B -> pm A) : (forall x, kp (f x) Q) -> kp (fun s => f (g s) s) Q.
Proof. intros F s w. exact (F _ _ w). Qed.

Ltac ks :=
  match goal with
  | |- kp (cbind next_token _) _ => eapply ke_bind0; [apply kp_next|intros _]
  | |- kp (cbind last_tok _) _ => eapply ke_bind0; [apply kp_last|intros ?]
  | |- kp (cbind the_line _) _ => eapply ke_bind0; [apply kp_line|intros ?]
  | |- kp (cbind the_int _) _ => eapply ke_bind0; [apply kp_int|intros ?]
  | |- kp (cbind lexeme _) _ => eapply ke_bind0; [apply kp_lexeme|intros ?]
  | |- kp (cbind (expect _) _) _ => eapply ke_bind0; [apply kp_expect|intros _]
  | |- kp (cbind (get_expect _) _) _ => eapply ke_bind0; [apply kp_get_expect|intros _]
  | |- kp (cbind the_tbl _) _ => eapply ke_bind; [apply kp_the_tbl|intros ? ?]
  | |- kp (cret _) _ => apply ke_ret
  | |- kp cfail _ => apply ke_fail
  | |- kp cub _ => apply ke_ub
  | |- kp cabort _ => apply ke_abort
  | |- kp (fun _ => CFuel) _ => apply ke_fuel
  | |- kp (if _ then _ else _) _ => apply kp_if
  | |- ke _ _ _ => match goal with |- ke _ ?m ?q => change (kp m q) end
  | |- any _ => exact I
  end.
Ltac kss := repeat ks.

Lemma kp_type : kp parse_type any.
Proof.
  unfold parse_type. kss. eapply ke_bind0; [apply kp_tbl, ke_tag_from_name|]. intros g. kss.
  destruct (tag_eq_dec g GVoid); kss. eapply ke_bind0; [apply kp_tbl, ke_get_nullable|]. intros g'. kss.
Qed.

Definition lhs_ok (e : expr) : Prop := match e with EId _ o => ref_new_opt o | _ => True end.
Definition kp_exprs (n : nat) : Prop :=
  kp (parse_expr n) lhs_ok /\ kp (parse_factor n) lhs_ok /\
  (forall p e, lhs_ok e -> kp (parse_rhs n p e) lhs_ok) /\
  (forall e, lhs_ok e -> kp (parse_suffix n e) lhs_ok) /\
  kp (parse_value n) lhs_ok /\
  (forall e, lhs_ok e -> kp (parse_dots n e) lhs_ok) /\
  kp (parse_call n) any /\ kp (parse_args n) any /\ kp (parse_new n) any.
Lemma kp_exprs_ok : forall n, kp_exprs n.
Proof.
  induction n as [|n (He & Hf & Hr & Hs & Hv & Hd & Hc & Ha & Hn)].
  { unfold kp_exprs; repeat split; intros; apply ke_fuel. }
  unfold kp_exprs. split; [|split; [|split; [|split; [|split; [|split; [|split; [|split]]]]]]].
  - cbn [parse_expr]. eapply ke_bind; [exact Hf|]. intros. apply Hr; auto.
  - cbn [parse_factor]. eapply ke_bind; [exact Hv|]. intros. apply Hs; auto.
  - intros p e He0. cbn [parse_rhs]. kss. destruct (prec_of a) as [q|]; [|kss; auto].
    destruct (bop_of a) as [o|]; kss; auto.
    eapply ke_bind; [exact Hf|]. intros r Hr0. kss. eapply ke_bind.
    { apply kp_if; [apply Hr; auto|apply ke_ret; exact Hr0]. }
    intros r' Hr'. apply Hr. exact I.
  - intros e He0. cbn [parse_suffix]. kss. destruct a; kss; auto.
    all: try (apply Hs; exact I).
    + eapply ke_bind; [exact He|]. intros i Hi. kss. apply Hs. exact I.
    + eapply ke_bind0; [exact Hc|]. intros args. apply Hs. exact I.
  - cbn [parse_value]. kss. destruct a; kss; auto; try exact I.
    all: try (eapply ke_bind; [first [exact Hf|exact He]|]; intros; kss; auto; try exact I; fail).
    all: try (apply (kp_reader _ (fun s => tk_b (ps_tok s)) (fun b => cbind next_token (fun _ => cret (EBool b)))); intros; kss; exact I).
    all: try (apply (kp_reader _ (fun s => tk_f (ps_tok s)) (fun b => cbind next_token (fun _ => cret (EFloat b)))); intros; kss; exact I).
    + eapply ke_bind0; [apply kp_tbl, ke_intern|]. intros i. kss. exact I.
    + eapply ke_bind0; [exact Hc|]. intros args. kss. exact I.
    + eapply ke_bind; [apply kp_tbl, ke_reference|]. intros r Rn. kss. exact Rn.
    + eapply ke_bind; [exact He|]. intros c Hc0. eapply ke_bind; [exact He|]. intros x Hx. kss.
      eapply ke_bind; [exact He|]. intros y Hy. kss. exact I.
    + eapply ke_bind0; [apply kp_tbl, ke_declare_struct|].
      intros i. kss. eapply ke_bind0; [exact Hn|]. intros [names args]. kss. exact I.
    + eapply ke_bind; [exact He|]. intros e He0. kss. eapply ke_bind0; [apply kp_type|]. intros g. kss.
      apply Hd. exact I.
  - intros e He0. cbn [parse_dots]. kss; auto. apply Hd. exact I.
  - cbn [parse_call]. kss. eapply ke_bind0; [exact Ha|]. intros args. kss.
  - cbn [parse_args]. kss. eapply ke_bind; [exact He|]. intros e He0. kss.
    eapply ke_bind0; [kss; apply kp_next|]. intros _. eapply ke_bind0; [exact Ha|]. intros es. kss.
  - cbn [parse_new]. kss. eapply ke_bind0; [kss|]. intros nm.
    eapply ke_bind; [exact He|]. intros e He0. kss. eapply ke_bind0; [kss; apply kp_next|]. intros _.
    eapply ke_bind0; [exact Hn|]. intros [ns es]. kss.
Qed.
Lemma kp_expr n : kp (parse_expr n) lhs_ok.
Proof. apply kp_exprs_ok. Qed.
Lemma kp_factor n : kp (parse_factor n) lhs_ok.
Proof. apply kp_exprs_ok. Qed.

Lemma kp_params n : kp (parse_params n) any.
Proof.
  induction n as [|n IH]; [apply ke_fuel|]. cbn [parse_params]. kss.
  eapply ke_bind0; [apply kp_type|]. intros g. kss. eapply ke_bind0; [kss; apply kp_next|]. intros _.
  eapply ke_bind0; [exact IH|]. intros. kss.
Qed.
Lemma kp_declare_params k ps : kp (declare_params k ps) any.
Proof.
  induction ps as [|[n g] ps IH]; cbn [declare_params]; kss. eapply ke_bind0; [apply kp_tbl, ke_declare_argument|]. intros _. exact IH.
Qed.
Lemma kp_use_args n : kp (parse_use_args n) any.
Proof.
  induction n as [|n IH]; [apply ke_fuel|]. cbn [parse_use_args]. kss.
  eapply ke_bind0; [kss; apply kp_next|]. intros _. eapply ke_bind0; [exact IH|]. intros. kss.
Qed.

(** The trees: variables assigned are global or belong to new functions,
    variables declared and functions defined are new *)
Fixpoint stmt_new (s : stmt) : Prop :=
  match s with
  | SAsg _ op l _ => match l with EId _ (Some r) => if tok_eqb op DECLARE then decl_new r else ref_new r | _ => True end
  | SBlock _ ss => (fix go ss := match ss with [] => True | s :: ss' => stmt_new s /\ go ss' end) ss
  | SProc _ f body => b <= f /\ stmt_new body
  | SIf _ _ a o => stmt_new a /\ match o with Some c => stmt_new c | None => True end
  | SWhile _ _ body => stmt_new body
  | SFor _ i _ st body => stmt_new i /\ stmt_new st /\ stmt_new body
  | _ => True
  end.
Fixpoint stmts_new (ss : list stmt) : Prop := match ss with [] => True | s :: ss' => stmt_new s /\ stmts_new ss' end.
Lemma stmts_new_block n ss : stmt_new (SBlock n ss) <-> stmts_new ss.
Proof. cbn. induction ss as [|s ss IH]; cbn; tauto. Qed.

Lemma kp_use n l : kp (parse_use n l) stmt_new.
Proof. unfold parse_use. kss. eapply ke_bind0; [apply kp_use_args|]. intros. kss; exact I. Qed.

Lemma decl_ref r : decl_new r -> ref_new r.
Proof. destruct r; cbn; auto. Qed.

Lemma kp_simple n : kp (parse_simple n) stmt_new.
Proof.
  unfold parse_simple. kss. eapply ke_bind; [apply kp_factor|]. intros lhs Hl.
  assert (X : kp (op <- last_tok ;;
      line <- the_line ;;
      ' (lhs', op') <-
        (if tok_eqb op DECLARE || tok_eqb op COLON then
           match lhs with
           | EId name _ =>
               tb <- the_tbl ;;
               r <- on_tbl (match tb_func tb with
                            | Some _ => declare_local name
                            | None => declare_global name end) ;;
               if tok_eqb op COLON then
                 next_token ;;;
                 g <- parse_type ;;
                 on_tbl (set_var_tag r g) ;;;
                 expect EQUAL ;;;
                 cret (EId name (Some r), EQUAL)
               else cret (EId name (Some r), op)
           | _ => cfail
           end
         else cret (lhs, op)) ;;
      match prec_of op' with
      | Some _ => cfail
      | None =>
          next_token ;;;
          rhs <- parse_expr n ;;
          (if tok_eqb op' DECLARECONST then
             match lhs' with
             | EId name _ =>
                 match const_of rhs with
                 | Some c => on_tbl (declare_const name c)
                 | None => cfail
                 end
             | _ => cfail
             end
           else cret tt) ;;;
          cret (SAsg line op' lhs' rhs)
      end) stmt_new); [|destruct lhs; try exact X; kss; exact I].
  kss. eapply ke_bind with (Q := fun p : expr * tokkind => stmt_new (SAsg 0 (snd p) (fst p) ENull)).
  - destruct (tok_eqb a0 DECLARE || tok_eqb a0 COLON) eqn:Eo.
    + destruct lhs; kss. eapply ke_bind with (Q := decl_new).
      { apply kp_tbl. destruct (tb_func a2); [apply ke_declare_local|apply ke_declare_global]. }
      intros r0 R. kss.
      * eapply ke_bind0; [apply kp_type|]. intros g. eapply ke_bind0; [apply kp_tbl, ke_set_var_tag; exact R|]. intros _. kss.
        cbn. apply decl_ref. exact R.
      * cbn. destruct (tok_eqb a0 DECLARE); [exact R|apply decl_ref; exact R].
    + kss. cbn. apply orb_false_iff in Eo as (-> & _). destruct lhs; auto.
  - intros [l op] Hp. cbn [fst snd] in Hp. destruct (prec_of op); kss. eapply ke_bind0; [eapply ke_any, kp_expr|]. intros r.
    eapply ke_bind0 with (Q' := stmt_new).
    { kss. destruct l; kss. destruct (const_of r); kss. apply kp_tbl, ke_declare_const. }
    intros _. kss. exact Hp.
Qed.

Lemma kp_stmts : forall n, kp (parse_stmt n) stmt_new /\ kp (parse_block n) stmts_new.
Proof.
  induction n as [|n (IHs & IHb)]; [split; apply ke_fuel|].
  assert (Op : kp (mod_tbl open_scope) any) by (apply kp_mod; intros; apply base_scope; auto).
  assert (Cl : kp (on_tbl close_scope) any) by (apply kp_tbl, ke_close).
  split.
  - cbn [parse_stmt]. kss. destruct a; try apply kp_simple; kss.
    + eapply ke_bind0; [exact Op|]. intros _. eapply ke_bind; [exact IHb|]. intros ss Hss. kss.
      eapply ke_bind0; [exact Cl|]. intros _. kss. apply stmts_new_block. exact Hss.
    + eapply ke_bind0; [eapply ke_any, kp_expr|]. intros c. eapply ke_bind; [exact IHs|]. intros x Hx. kss.
      * eapply ke_bind; [exact IHs|]. intros y Hy. kss. cbn. auto.
      * cbn. auto.
    + eapply ke_bind0; [eapply ke_any, kp_expr|]. intros c. eapply ke_bind0; [exact Op|]. intros _.
      eapply ke_bind; [exact IHs|]. intros x Hx. eapply ke_bind0; [exact Cl|]. intros _. kss. exact Hx.
    + eapply ke_bind0; [exact Op|]. intros _. eapply ke_bind; [exact IHs|]. intros i Hi. kss.
      eapply ke_bind0; [eapply ke_any, kp_expr|]. intros c. kss. eapply ke_bind; [exact IHs|]. intros st Hst.
      eapply ke_bind; [exact IHs|]. intros x Hx. eapply ke_bind0; [exact Cl|]. intros _. kss. cbn. auto.
    + destruct (tb_func a) as [f|]; kss; try exact I. destruct (sym_at a2 f) as [[? ? []]|]; kss. destruct ret; kss.
      destruct (tag_eq_dec t GVoid); kss. eapply ke_bind0; [eapply ke_any, kp_expr|]. intros. kss. exact I.
    + destruct (tb_func a); kss. eapply ke_bind; [apply kp_tbl, ke_declare_function|]. intros f Lf.
      eapply ke_bind0; [apply kp_mod; intros; apply base_func; auto|]. intros _. kss.
      eapply ke_bind0; [apply kp_params|]. intros ps. eapply ke_bind0; [apply kp_declare_params|]. intros _. kss.
      eapply ke_bind0; [|intros _].
      { kss; [eapply ke_bind0; [apply kp_type|]; intros g|]; apply kp_tbl, ke_set_ret; exact Lf. }
      eapply ke_bind0; [exact Op|]. intros _. eapply ke_bind; [exact IHs|]. intros x Hx. eapply ke_bind0; [exact Cl|]. intros _.
      eapply ke_bind0; [apply kp_mod; intros; apply base_func; auto|]. intros _. kss. cbn. auto.
    + exact I.
    + exact I.
    + destruct (tb_func a); kss. apply kp_use.
  - cbn [parse_block]. kss; [exact I|]. eapply ke_bind; [exact IHs|]. intros x Hx. eapply ke_bind; [exact IHb|]. intros y Hy. kss. cbn. auto.
Qed.

Lemma kp_fields id : open_id id -> forall n, kp (parse_fields n id) any.
Proof.
  intros O. induction n as [|n IH]; [apply ke_fuel|]. cbn [parse_fields]. kss.
  destruct (sym_at a1 id) as [[? ? []]|]; kss. destruct (field_index fields a0); kss.
  eapply ke_bind0; [apply kp_type|]. intros g. eapply ke_bind0; [apply kp_tbl, ke_put_field; exact O|]. intros _. exact IH.
Qed.
Lemma kp_struct n : kp (parse_struct n) any.
Proof.
  unfold parse_struct. kss. destruct (tb_func a); kss. eapply ke_bind0; [apply kp_tbl, ke_declare_struct|]. intros id. kss.
  destruct (sym_at a1 id) as [[? ? [| | | |[]| | |]]|] eqn:Y; kss.
  assert (O : open_id id) by (eapply open_at; eauto).
  eapply ke_bind0; [|intros _].
  { apply kp_mod. intros t B. destruct (sym_at t id) as [y|] eqn:Yt.
    - apply (base_put _ _ _ _ B Yt); [intros; exact I|]. intros x0 _ I0 E0 _. destruct (O x0 I0 E0) as (fs & ->). right. exact I.
    - assert (X : put_body t id (SyStruct true fields) = t); [|rewrite X; exact B].
      unfold put_body. destruct t as [sy nx st a2 a3 a4 a5 a6]. unfold set_syms, sym_at in *. cbn in *. f_equal. clear - Yt.
      induction sy as [|y sy IH]; auto. cbn in *. destruct (sy_id y =? id); try discriminate. rewrite IH; auto. }
  kss. eapply ke_bind0; [apply kp_fields; exact O|]. intros _. kss. destruct (sym_at a2 id) as [[? ? []]|]; kss. destruct fields0; kss.
Qed.
Lemma kp_top n : kp (parse_top n) stmts_new.
Proof.
  induction n as [|n IH]; [apply ke_fuel|]. cbn [parse_top]. kss.
  assert (X : kp (s <- parse_stmt n ;; ss <- parse_top n ;; cret (s :: ss)) stmts_new).
  { eapply ke_bind; [apply kp_stmts|]. intros x Hx. eapply ke_bind; [exact IH|]. intros y Hy. kss. cbn. auto. }
  destruct a; try exact X; kss; try exact I. eapply ke_bind0; [apply kp_struct|]. intros _. exact IH.
Qed.
Lemma kp_program n : kp (parse_program n) stmts_new.
Proof. unfold parse_program. kss. apply kp_top. Qed.

(** ** The host *)
Lemma ke_register_type n : ke base (register_type n) any.
Proof.
  intros t B. unfold register_type. destruct (prim_tag n); [split; [auto|exact I]|].
  destruct (find _ _) as [[id nm x]|] eqn:Fd.
  - assert (D : (exists fs, x = SyStruct false fs) \/ (match x with SyStruct false _ => COk tt (put_body t id SyForeignTag) | _ => COk tt t end : cres tbl unit) = COk tt t).
    { destruct x as [| | | |[]| | |]; eauto. }
    destruct D as [(fs & ->)|E]; [|rewrite E; split; [auto|exact I]].
    split; [|exact I].
    destruct (sym_at t id) as [y|] eqn:Y.
    + destruct y as [yi yn yb]. apply find_some in Fd as (Fd & _).
      apply (base_put t id (mkSym yi yn yb)); auto; [intros; exact I|]. intros x0 L I0 E0 K.
      assert (X : kept x0 (mkSym id nm (SyStruct false fs))).
      { destruct B as [(l1 & l2 & E & Kk & N) _ _ _ _ _ _]. rewrite E in Fd. apply in_app_iff in Fd as [Fd|Fd].
        - apply (kept_pair _ _ _ _ Kk); auto.
        - pose proof (proj1 (Forall_forall _ _) N _ Fd) as (Q & _). cbn in Q. lia. }
      destruct X as (_ & _ & [X|X]); cbn [sy_body] in X; [rewrite X; right; exact I|].
      destruct (sy_body x0) as [| | | |[]| | |]; try contradiction. right. exact I.
    + exfalso. unfold sym_at in Y. apply find_some in Fd as (Fd & _). apply (find_none _ _ Y) in Fd. cbn in Fd. rewrite Nat.eqb_refl in Fd. discriminate.
  - split; [|exact I]. apply base_new; auto. exact I.
Qed.
Lemma kp_sig_args n : kp (sig_args n) any.
Proof.
  induction n as [|n IH]; [apply ke_fuel|]. cbn [sig_args]. kss. destruct a; kss; try exact IH;
    first [eapply ke_bind0; [apply kp_type|]; intros g; eapply ke_bind0; [exact IH|]; intros r; kss
          |eapply ke_bind0; [exact IH|]; intros r; kss].
Qed.
Lemma kp_bind_sig n c : kp (bind_sig n c) any.
Proof.
  unfold bind_sig. kss; [apply kp_tbl, ke_bind_function|]. eapply ke_bind0; [apply kp_sig_args|]. intros r. kss.
  eapply ke_bind0; [kss; apply kp_type|]. intros g. apply kp_tbl, ke_bind_function.
Qed.
Lemma start_tbl t src : ps_tbl (start_parse t src) = t.
Proof. unfold start_parse. destruct (lex_all src). reflexivity. Qed.
Lemma ke_bind_host n sig c : ke base (bind_host n sig c) any.
Proof.
  intros t B. unfold bind_host. pose proof (kp_bind_sig n c (start_parse t sig)) as X. cbn in X. rewrite start_tbl in X. specialize (X B).
  destruct (bind_sig n c (start_parse t sig)); auto.
Qed.
Lemma ke_bind_const n c : ke base (bind_const n c) any.
Proof. destruct c; cbn [bind_const]; try apply ke_declare_const. eapply ke_bind0; [apply ke_intern|]. intros. apply ke_declare_const. Qed.
Lemma ke_bind_macro n : ke base (bind_macro n) any.
Proof. intros t B. unfold bind_macro. destruct (existsb _ _); auto. split; [|exact I]. apply base_new; auto. exact I. Qed.

(** ** The resolver *)
Lemma ke_kindm g : ke base (kindm g) any.
Proof. intros t B. unfold kindm. destruct (kind_of t g); auto. split; auto; exact I. Qed.
Lemma ke_check x y : ke base (check_assignable x y) any.
Proof. intros t B. unfold check_assignable. destruct (assignable _ _ _ _) as [[]|]; auto. split; auto; exact I. Qed.
Lemma ke_or_fail {A} (o : option A) : ke base (or_fail o) any.
Proof. intros t B. destruct o; cbn; auto. split; auto; exact I. Qed.
Lemma ke_or_ub {A} (o : option A) : ke base (or_ub o) any.
Proof. intros t B. destruct o; cbn; auto. split; auto; exact I. Qed.
Lemma ke_cget : ke base cget any.
Proof. intros t B. split; auto; exact I. Qed.
Lemma ke_if {A} (c : bool) (m m' : tbl -> cres tbl A) Q : ke base m Q -> ke base m' Q -> ke base (if c then m else m') Q.
Proof. destruct c; auto. Qed.

Ltac kr :=
  match goal with
  | |- ke _ (cbind cget _) _ => eapply ke_bind0; [apply ke_cget|intros ?]
  | |- ke _ (cbind (kindm _) _) _ => eapply ke_bind0; [apply ke_kindm|intros ?]
  | |- ke _ (cbind (check_assignable _ _) _) _ => eapply ke_bind0; [apply ke_check|intros _]
  | |- ke _ (cbind (or_fail _) _) _ => eapply ke_bind0; [apply ke_or_fail|intros ?]
  | |- ke _ (cbind (or_ub _) _) _ => eapply ke_bind0; [apply ke_or_ub|intros ?]
  | |- ke _ (cret _) _ => apply ke_ret
  | |- ke _ cfail _ => apply ke_fail
  | |- ke _ cub _ => apply ke_ub
  | |- ke _ cabort _ => apply ke_abort
  | |- ke _ (if _ then _ else _) _ => apply ke_if
  | |- any _ => exact I
  | |- ke _ (cbind (resolve ?e) _) _ => match goal with H : ke base (resolve e) any |- _ => eapply ke_bind0; [exact H|intros ?] end
  end.
Ltac krs := repeat kr.

Lemma ke_args args : Forall (fun e => ke base (resolve e) any) args -> forall ps va, ke base (resolve_args resolve ps va args) any.
Proof.
  induction 1 as [|a args Ha _ IH]; intros ps va; cbn [resolve_args]; krs. destruct ps as [|p ps]; krs;
    (eapply ke_bind0; [apply IH|]; intros; krs).
Qed.
Lemma ke_inits id args : Forall (fun e => ke base (resolve e) any) args -> forall nmd names i, ke base (resolve_inits resolve id nmd names i args) any.
Proof.
  induction 1 as [|a args Ha _ IH]; intros nmd names i; cbn [resolve_inits]; krs. destruct (sym_at _ id) as [[? ? []]|]; krs.
  eapply ke_bind0.
  - destruct nmd; [destruct names; krs; destruct (field_index fields t) as [[? ?]|]; krs; apply ke_check|
      destruct (nth_error fields i); krs; apply ke_check].
  - intros _. eapply ke_bind0; [apply IH|]. intros; krs.
Qed.
Lemma ke_resolve e : ke base (resolve e) any.
Proof.
  induction e using expr_ind'; cbn [resolve]; krs.
  - destruct r; krs.
  - destruct (reference_function a f); krs. destruct a0 as [[ps va] ret]. eapply ke_bind0; [apply ke_args; exact H|]. intros; krs.
  - destruct (sym_at a t) as [[? ? [| | | |[]| | |]]|]; krs. eapply ke_bind0; [apply ke_inits; exact H|]. intros; krs.
  - destruct a0; krs. destruct (tag_of a); krs. destruct (sym_at a0 id) as [[? ? []]|]; krs. destruct a1; krs.
  - destruct (reference_function _ _); krs. destruct a3 as [[? ?] ?]; krs.
  - destruct (tag_eq_dec _ _); krs.
Qed.

Fixpoint tstmt_new (s : tstmt) : Prop :=
  match s with
  | TSDecl _ r _ => decl_new r
  | TSAsg _ _ l _ => match l with TId r _ => ref_new r | _ => True end
  | TSBlock _ ss => (fix go ss := match ss with [] => True | s :: ss' => tstmt_new s /\ go ss' end) ss
  | TSProc _ f body => b <= f /\ tstmt_new body
  | TSIf _ _ a o => tstmt_new a /\ match o with Some c => tstmt_new c | None => True end
  | TSWhile _ _ body => tstmt_new body
  | TSFor _ i _ st body => tstmt_new i /\ tstmt_new st /\ tstmt_new body
  | _ => True
  end.
Fixpoint tstmts_new (ss : list tstmt) : Prop := match ss with [] => True | s :: ss' => tstmt_new s /\ tstmts_new ss' end.
Lemma tstmts_new_block n ss : tstmt_new (TSBlock n ss) <-> tstmts_new ss.
Proof. cbn. induction ss as [|s ss IH]; cbn; tauto. Qed.
Lemma ke_check_bool e : ke base (check_bool e) any.
Proof. unfold check_bool. krs. Qed.
Lemma ke_ret_tag : ke base ret_tag any.
Proof. intros t B. unfold ret_tag. destruct (tb_func t); auto. destruct (sym_at t n) as [[? ? []]|]; auto. destruct ret; auto. split; auto; exact I. Qed.

Lemma resolve_id n r t : match resolve (EId n (Some r)) t with COk e _ => exists g, e = TId r g | _ => True end.
Proof. cbn. unfold cbind, cget, or_ub. destruct (ref_tag t r); auto. cbn. eauto. Qed.
Lemma resolve_not_id e t : match e with EId _ _ => False | _ => True end -> match resolve e t with COk (TId _ _) _ => False | _ => True end.
Proof.
  intros N. destruct (resolve e t) as [e' t'| | | | |] eqn:E; auto. destruct e' eqn:Ee; auto. destruct e; cbn [resolve] in E; try contradiction;
    repeat first [discriminate E | apply cbind_ok in E as (? & ? & _ & E) | match type of E with
      | context [match ?x with _ => _ end] => match type of x with _ => destruct x eqn:? end
      end].
Qed.
Lemma ke_lhs l : lhs_ok l -> ke base (resolve l) (fun e => match e with TId r _ => ref_new r | _ => True end).
Proof.
  intros L t B. pose proof (ke_resolve l t B) as X. destruct (resolve l t) as [e t'| | | | |] eqn:E; auto. destruct X as (X & _). split; auto.
  destruct e as [| | | | | |r g| | | | | | | | |]; auto. destruct l as [| | | | | |nm ro| | | | | | | | |]; try (match type of E with resolve ?e t = _ => pose proof (resolve_not_id e t I) as Y; rewrite E in Y; contradiction end).
  destruct ro as [r0|]; [|discriminate E]. pose proof (resolve_id nm r0 t) as Y. rewrite E in Y. destruct Y as (g0 & Y). injection Y as -> _. exact L.
Qed.

Lemma ke_resolve_stmt s : stmt_new s -> ke base (resolve_stmt s) tstmt_new.
Proof.
  induction s using stmt_ind'; intros N; cbn [resolve_stmt]; try (krs; exact I).
  - eapply ke_bind0; [apply (ke_resolve (ECall _ _))|]. intros [] ; krs; exact I.
  - cbn [stmt_new] in N. destruct (tok_eqb o DECLARE) eqn:Eo.
    + destruct l as [| | | | | |nm [v|]| | | | | | | | |]; krs. eapply ke_bind0; [apply ke_resolve|]. intros r'. krs.
      eapply ke_bind0; [krs|]. intros _. eapply ke_bind0; [apply ke_set_var_tag; exact N|]. intros _. krs. exact N.
    + destruct (is_assign o).
      * eapply ke_bind; [apply (ke_lhs l); destruct l; try exact I; destruct r0; exact N|]. intros l' Hl. eapply ke_bind0; [apply ke_resolve|]. intros r'. krs. exact Hl.
      * eapply ke_bind0; [apply ke_resolve|]. intros _. krs. destruct (tok_eqb o DECLARECONST); exact I.
  - apply stmts_new_block in N. eapply ke_bind with (Q := tstmts_new).
    + induction H as [|x ss Hx _ IH]; krs; [exact I|]. destruct N as (N1 & N2). eapply ke_bind; [exact (Hx N1)|]. intros y Hy.
      eapply ke_bind; [exact (IH N2)|]. intros ys Hys. krs. split; auto.
    + intros ts Hts. krs. apply tstmts_new_block. exact Hts.
  - destruct N as (N1 & N2). eapply ke_bind with (Q := base); [apply ke_get|]. intros t Bt.
    eapply ke_bind0; [intros t1 B; split; [apply base_func; auto|exact I]|]. intros _.
    eapply ke_bind; [exact (IHs N2)|]. intros y Hy.
    eapply ke_bind0; [intros t1 B; split; [apply base_func; auto; apply (bs_func _ Bt)|exact I]|]. intros _. krs. split; auto.
  - destruct N as (N1 & N2). eapply ke_bind0; [apply ke_resolve|]. intros c'. eapply ke_bind0; [apply ke_check_bool|]. intros _.
    eapply ke_bind; [exact (IHs N1)|]. intros y Hy.
    eapply ke_bind with (Q := fun o => match o with Some c => tstmt_new c | None => True end).
    + destruct b as [b0|]; krs; [|exact I]. eapply ke_bind; [exact (H _ eq_refl N2)|]. intros z Hz. krs. exact Hz.
    + intros o Ho. krs. split; auto.
  - eapply ke_bind0; [apply ke_resolve|]. intros c'. eapply ke_bind0; [apply ke_check_bool|]. intros _.
    eapply ke_bind; [exact (IHs N)|]. intros y Hy. krs. exact Hy.
  - destruct N as (N1 & N2 & N3). eapply ke_bind; [exact (IHs1 N1)|]. intros i' Hi. eapply ke_bind0; [apply ke_resolve|]. intros c'. eapply ke_bind0; [apply ke_check_bool|]. intros _.
    eapply ke_bind; [exact (IHs2 N2)|]. intros y Hy. eapply ke_bind; [exact (IHs3 N3)|]. intros z Hz. krs. split; auto.
  - eapply ke_bind0; [apply ke_ret_tag|]. intros g. destruct e as [e|]; krs; try exact I. eapply ke_bind0; [apply ke_resolve|]. intros e'. krs. exact I.
Qed.
Lemma ke_resolve_all ss : stmts_new ss -> ke base (resolve_all ss) tstmts_new.
Proof.
  induction ss as [|s ss IH]; intros N; cbn [resolve_all]; krs; [exact I|]. destruct N as (N1 & N2).
  eapply ke_bind; [exact (ke_resolve_stmt s N1)|]. intros y Hy. eapply ke_bind; [exact (IH N2)|]. intros z Hz. krs. split; auto.
Qed.
End Base.
