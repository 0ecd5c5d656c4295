(** * Compiled code is typed *)
From Verif Require Import Base Token Values Code VM VMSpec Syntax Symbols Resolve Compile Layout LayoutProofs CompileProofs TableInv SimExpr HeightSpec HeightProofs TypeSpec.
Local Open Scope nat_scope.

(** ** What the type checker establishes about a tree, relative to a table *)
Section Wt.
Variable t : tbl.
(** as [fit], but there may be too few arguments *)
Fixpoint fit_some (params : list (option tag)) (va : bool) (gs : list tag) : Prop :=
  match params, gs with
  | _, [] => True
  | [], _ :: _ => va = true
  | p :: params', g :: gs' => (exists q, p = Some q /\ assign_ok t g q) /\ fit_some params' va gs'
  end.
Definition wt_call (f : text) (gs : list tag) (g : tag) : Prop :=
  exists y params va, reference_function t f = Some y /\ sig_of (sy_body y) = Some (params, va, Some g) /\ fit_some params va gs.
Definition wt_field (fs : list field) (nm : text) (g : tag) : Prop :=
  exists k g', field_index fs nm = Some (k, g') /\ assign_ok t g g'.
Definition wt_new (id : nat) (names : list text) (gs : list tag) : Prop :=
  exists fs, sfields t id = Some fs /\
    match names with
    | [] => forall i f g, nth_error fs i = Some f -> nth_error gs i = Some g -> assign_ok t g (fd_tag f)
    | _ => forall i nm g, nth_error names i = Some nm -> nth_error gs i = Some g -> wt_field fs nm g
    end.
Fixpoint wt_e (e : texpr) : Prop :=
  match e with
  | TId r g => ref_tag t r = Some g
  | TCall f args g => all_of (map wt_e args) /\ wt_call f (map tag_of args) g
  | TNew id names args => all_of (map wt_e args) /\ wt_new id names (map tag_of args)
  | TBin o l r g => wt_e l /\ wt_e r /\
      exists kl kr, kind_of t (tag_of l) = Some kl /\ kind_of t (tag_of r) = Some kr /\ bin_tag o kl kr = Some g
  | TUn o e g => wt_e e /\ exists k, kind_of t (tag_of e) = Some k /\ un_tag o k = Some g
  | TParen e | TCast e _ => wt_e e
  | TDot e f g => wt_e e /\ exists id fs k, tag_of e = GSym id /\ sfields t id = Some fs /\ field_index fs f = Some (k, g)
  | TIndex a i gf _ g => wt_e a /\ wt_e i /\ exists y params va, sym_at t gf = Some y /\ sig_of (sy_body y) = Some (params, va, Some g)
  | TTern c a b g => wt_e c /\ wt_e a /\ wt_e b /\ kind_of t (tag_of c) = Some KBoolT /\ tag_of a = g /\ tag_of b = g
  | _ => True
  end.
Definition ret_of (cur : option nat) : option tag :=
  match cur with
  | Some f => match sym_at t f with Some (mkSym _ _ (SyFunc _ _ _ r)) => r | _ => None end
  | None => None
  end.
Definition wt_bool (e : texpr) : Prop := wt_e e /\ kind_of t (tag_of e) = Some KBoolT.
Fixpoint wt_s (cur : option nat) (s : tstmt) : Prop :=
  match s with
  | TSCall _ f args => all_of (map wt_e args) /\ exists g, wt_call f (map tag_of args) g
  | TSDecl _ r e => wt_e e /\ ref_tag t r = Some (tag_of e)
  | TSAsg _ _ l r => wt_e l /\ wt_e r /\ assign_ok t (tag_of r) (tag_of l)
  | TSBlock _ ss => all_of (map (wt_s cur) ss)
  | TSProc _ f body => wt_s (Some f) body
  | TSIf _ c a b => wt_bool c /\ wt_s cur a /\ match b with Some b => wt_s cur b | None => True end
  | TSWhile _ c body => wt_bool c /\ wt_s cur body
  | TSFor _ i c st body => wt_s cur i /\ wt_bool c /\ wt_s cur st /\ wt_s cur body
  | TSReturn _ (Some e) => wt_e e /\ exists g, ret_of cur = Some g /\ assign_ok t (tag_of e) g
  | _ => True
  end.
End Wt.

(** Two structs of one name are one struct. *)
Definition struct_names (t : tbl) : Prop :=
  forall y y' d d' fs fs', In y (tb_syms t) -> In y' (tb_syms t) -> sy_body y = SyStruct d fs -> sy_body y' = SyStruct d' fs' ->
    sy_name y = sy_name y' -> y = y'.

(** ** Subtyping *)
Section Sub.
Variable t : tbl.
Definition sub (g g' : tag) : Prop := forall S v, has t S g v -> has t S g' v.
Lemma sub_refl g : sub g g. Proof. intros S v. auto. Qed.

Lemma kind_bool g : kind_of t g = Some KBoolT -> g = GBool.
Proof. destruct g; cbn; try discriminate; auto. destruct (sym_at t id) as [[? ? []]|]; discriminate. Qed.
Lemma kind_int g : kind_of t g = Some KIntT -> g = GInt.
Proof. destruct g; cbn; try discriminate; auto. destruct (sym_at t id) as [[? ? []]|]; discriminate. Qed.
Lemma kind_float g : kind_of t g = Some KFloatT -> g = GFloat.
Proof. destruct g; cbn; try discriminate; auto. destruct (sym_at t id) as [[? ? []]|]; discriminate. Qed.
Lemma kind_str g : kind_of t g = Some KStrT -> g = GStr.
Proof. destruct g; cbn; try discriminate; auto. destruct (sym_at t id) as [[? ? []]|]; discriminate. Qed.
Lemma kind_struct g : kind_of t g = Some KStruct -> exists id nm d fs, g = GSym id /\ sym_at t id = Some (mkSym id nm (SyStruct d fs)).
Proof.
  destruct g; cbn; try discriminate. destruct (sym_at t id) as [[i nm []]|] eqn:E; try discriminate. intros _.
  destruct (sym_at_in _ _ _ E) as (_ & X). cbn in X. subst. eauto 7.
Qed.

Lemma assignable_sub : struct_names t -> forall n g g', assignable n t g g' = Some true -> sub g g'.
Proof.
  intros U. induction n as [|n IH]; intros g g' A; [discriminate|]. cbn [assignable] in A.
  destruct (kind_of t g) as [ks|] eqn:Kg; [|discriminate].
  assert (A' : match kind_of t g' with
    | None => None
    | Some KAny => Some true
    | Some kd => match ks with KAny => Some false | _ => match kd with KNullable inner => assignable n t g inner
       | _ => if same_kind ks kd then match tag_name t g, tag_name t g' with Some x, Some y => Some (text_eqb x y) | _, _ => None end else Some false end end end = Some true).
  { destruct ks; try discriminate A; exact A. }
  clear A. rename A' into A. destruct (kind_of t g') as [kd|] eqn:Kd; [|discriminate].
  assert (Any : kd = KAny -> sub g g') by (intros -> S v _; apply has_open; auto).
  assert (Nul : forall inner, kd = KNullable inner -> assignable n t g inner = Some true -> sub g g').
  { intros inner -> A1 S v Hv. apply (IH _ _ A1) in Hv. destruct g'; cbn in Kd; try discriminate. eapply has_nullable; [exact Kd|exact Hv]. }
  assert (Sm : same_kind ks kd = true -> kd <> KAny -> (forall i, kd <> KNullable i) ->
     match tag_name t g, tag_name t g' with Some x, Some y => Some (text_eqb x y) | _, _ => None end = Some true -> sub g g').
  { intros Sk N1 N2 Nm. destruct ks, kd; try discriminate Sk; try congruence;
      try (apply kind_bool in Kg; apply kind_bool in Kd; subst; apply sub_refl);
      try (apply kind_int in Kg; apply kind_int in Kd; subst; apply sub_refl);
      try (apply kind_float in Kg; apply kind_float in Kd; subst; apply sub_refl);
      try (apply kind_str in Kg; apply kind_str in Kd; subst; apply sub_refl);
      try (intros S v _; apply has_open; auto; fail).
    apply kind_struct in Kg as (i & nm & d & fs & -> & E). apply kind_struct in Kd as (i' & nm' & d' & fs' & -> & E').
    cbn in Nm. rewrite E, E' in Nm. cbn in Nm. injection Nm as Nm. apply text_eqb_eq in Nm. subst nm'.
    apply sym_at_in in E as (I & _). apply sym_at_in in E' as (I' & _).
    pose proof (U _ _ _ _ _ _ I I' eq_refl eq_refl eq_refl) as X. injection X as -> -> ->. apply sub_refl. }
  destruct kd; auto; destruct ks; try discriminate A; try (eapply Nul; [reflexivity|exact A]);
    cbn [same_kind] in A; try discriminate A; apply Sm; auto; try discriminate; intros; discriminate.
Qed.
Lemma assign_sub g g' : struct_names t -> assign_ok t g g' -> sub g g'.
Proof. intros U (n & A). eapply assignable_sub; eauto. Qed.
End Sub.

(** ** Typed instructions *)
Section Code.
Variable t : tbl.
Definition ltag (v : lvar) : tag := match lv_tag v with Some g => g | None => GAny end.
Definition locals_of (cur : option nat) : list lvar :=
  match cur with
  | Some f => match sym_at t f with Some (mkSym _ _ (SyFunc _ _ l _)) => l | _ => [] end
  | None => []
  end.
Definition params_of (cur : option nat) : list lvar :=
  match cur with
  | Some f => match sym_at t f with Some (mkSym _ _ (SyFunc _ a _ _)) => a | _ => [] end
  | None => []
  end.
(** the stack of a function between statements: its locals *)
Definition lbase (cur : option nat) : list tag := rev (map ltag (locals_of cur)).

(** Types on the stack above the frame base (top first), type of the last
    result if it is known *)
Definition ast : Type := list tag * option tag.

(** variable number [k] of the frame *)
Definition slot_tag (cur : option nat) (S : list tag) (k : Z) (g : tag) : Prop :=
  (exists i S1, k = Z.of_nat i /\ S = S1 ++ lbase cur /\ nth_error (map ltag (locals_of cur)) i = Some g) \/
  (exists i v, k = (Z.of_nat i - Z.of_nat (length (params_of cur)))%Z /\ nth_error (params_of cur) i = Some v /\ lv_tag v = Some g).
Definition glob_tag (i : nat) (g : tag) : Prop := exists y b, In y (tb_syms t) /\ sy_body y = SyGlobal i b (Some g).
Definition is_num (g : tag) : Prop := g = GInt \/ g = GFloat.
Definition bin_ty (o : binop) (a b g : tag) : Prop :=
  if is_narrow o then a = GInt /\ b = GInt /\ g = GInt
  else is_num a /\ is_num b /\
    g = if is_wide o then (match a, b with GInt, GInt => GInt | _, _ => GFloat end) else GBool.

Inductive ity (cur : option nat) : instr -> ast -> ast -> Prop :=
| ty_null S r : ity cur IPushNull (S, r) (GAny :: S, None)
| ty_nulls n gs S r : Z.to_nat n = length gs -> ity cur (IPushNullN n) (S, r) (gs ++ S, None)
| ty_true S r : ity cur IPushTrue (S, r) (GBool :: S, None)
| ty_false S r : ity cur IPushFalse (S, r) (GBool :: S, None)
| ty_int z S r : ity cur (IPushInt z) (S, r) (GInt :: S, None)
| ty_0 S r : ity cur IPush0 (S, r) (GInt :: S, None)
| ty_1 S r : ity cur IPush1 (S, r) (GInt :: S, None)
| ty_float z S r : ity cur (IPushFloat z) (S, r) (GFloat :: S, None)
| ty_string z S r : ity cur (IPushStringFF z) (S, r) (GStr :: S, None)
| ty_struct n id fs gs S r : sfields t id = Some fs -> Z.to_nat n = length fs -> Forall2 (fun f g => sub t g (fd_tag f)) fs gs ->
    ity cur (IPushStruct n) (rev gs ++ S, r) (GSym id :: S, None)
| ty_get k id fs f S r : sfields t id = Some fs -> nth_error fs (Z.to_nat k) = Some f ->
    ity cur (IStructGet k) (GSym id :: S, r) (fd_tag f :: S, None)
| ty_set k id fs f g S r : sfields t id = Some fs -> nth_error fs (Z.to_nat k) = Some f -> sub t g (fd_tag f) ->
    ity cur (IStructSet k) (GSym id :: g :: S, r) (S, None)
| ty_bin o a b g S r : bin_ty o a b g -> ity cur (IBin o) (b :: a :: S, r) (g :: S, None)
| ty_add1 S r : ity cur IAdd1 (GInt :: S, r) (GInt :: S, None)
| ty_sub1 S r : ity cur ISub1 (GInt :: S, r) (GInt :: S, None)
| ty_equ a b S r : ity cur IEqu (b :: a :: S, r) (GBool :: S, None)
| ty_not S r : ity cur INot (GBool :: S, r) (GBool :: S, None)
| ty_gset k g g' S r : glob_tag (Z.to_nat k) g' -> sub t g g' -> ity cur (ISet k) (g :: S, r) (S, None)
| ty_gget k g S r : glob_tag (Z.to_nat k) g -> ity cur (IGet k) (S, r) (g :: S, None)
| ty_callf n f y ps va g c gs S r r' : In y (tb_syms t) -> sy_body y = SyForeign (Z.to_nat f) ps va g c ->
    Z.to_nat n = length gs -> (exists g1 g2, gs = g1 ++ g2 /\ Forall2 (fun p g => sub t g p) ps g1 /\ (va = false -> g2 = [])) ->
    r' = None \/ r' = Some g -> ity cur (ICallF n f) (rev gs ++ S, r) (S, r')
| ty_lget k k' g S r : slot_tag cur S k g -> k' = (k mod 2^32)%Z -> ity cur (IGetLocal k') (S, r) (g :: S, None)
| ty_lgetw k g S r : slot_tag cur S k g -> (0 <= k)%Z -> ity cur (IGetLocalW k) (S, r) (g :: S, None)
| ty_lset k k' g g' S r : slot_tag cur S k g' -> k' = (k mod 2^32)%Z -> sub t g g' -> ity cur (ISetLocal k') (g :: S, r) (S, None)
| ty_ret g S : ity cur IGetRetval (S, Some g) (g :: S, None).

(** What a typed instruction needs, [K] being what is known of the addresses
    it goes to *)
Definition step_ok (cur : option nat) (i : instr) (next : Z) (A : ast) (K : Z -> ast -> Prop) : Prop :=
  match i with
  | IGoto k => K (to_signed32 k) (fst A, None)
  | IGotoz k => exists S, fst A = GBool :: S /\ K (to_signed32 k) (S, None) /\ K next (S, None)
  | ICall n f => exists fid nm args locals ret gs S r',
      sym_at t fid = Some (mkSym fid nm (SyFunc (Z.to_nat f) args locals ret)) /\
      fst A = rev gs ++ S /\ Forall2 (fun a g => forall p, lv_tag a = Some p -> sub t g p) args gs /\ Z.to_nat n = length args /\
      (r' = None \/ r' = ret) /\ K next (S, r')
  | IReturn => True
  | IReturnValue => exists g S r, fst A = g :: S /\ ret_of t cur = Some r /\ sub t g r
  | IHalt => cur = None
  | _ => exists B, ity cur i A B /\ K next B
  end.

Definition asub (A B : ast) : Prop := Forall2 (sub t) (fst A) (fst B) /\ (snd B = None \/ snd B = snd A).
Lemma subs_refl l : Forall2 (sub t) l l.
Proof. induction l; constructor; auto. apply sub_refl. Qed.
Lemma asub_refl A : asub A A.
Proof. split; [apply subs_refl|auto]. Qed.
Lemma subs_trans l1 l2 l3 : Forall2 (sub t) l1 l2 -> Forall2 (sub t) l2 l3 -> Forall2 (sub t) l1 l3.
Proof. intros P. revert l3. induction P; intros l3 Q; inversion Q; subst; constructor; auto. intros S v Hv. auto. Qed.
Lemma asub_trans A B D : asub A B -> asub B D -> asub A D.
Proof. intros (P & Q) (P' & Q'). split; [eapply subs_trans; eauto|]. destruct Q' as [->| ->]; auto. Qed.
Definition up (K : Z -> ast -> Prop) (pc : Z) (A : ast) : Prop := exists B, asub A B /\ K pc B.
Lemma up_in (K : Z -> ast -> Prop) pc A : K pc A -> up K pc A.
Proof. intros Q. exists A. split; [apply asub_refl|exact Q]. Qed.

(** One type state at least for every address execution reaches. *)
Record typing (C : program) (fpcs : list Z) (st : Z -> option nat -> ast -> Prop) : Prop := {
  ty_start : st 0%Z None ([], None);
  ty_fun : forall f nm i a l r, sym_at t f = Some (mkSym f nm (SyFunc i a l r)) ->
    exists e, nth_error fpcs i = Some e /\ st e (Some f) ([], None);
  ty_step : forall pc cur A, st pc cur A -> exists i next, decode C pc = Ok (i, next) /\
    step_ok cur i next A (up (fun pc' B => st pc' cur B))
}.

Lemma step_ok_mono cur i next A (K K' : Z -> ast -> Prop) : (forall pc B, K pc B -> K' pc B) -> step_ok cur i next A K -> step_ok cur i next A K'.
Proof.
  intros M. destruct i; cbn [step_ok]; try (intros (B & X & Y); eauto; fail); auto.
  - intros (S & X & Y & Z). exists S. auto.
  - intros (fid & nm & a & l & r & gs & S & r' & X1 & X2 & X3 & X4 & X5 & X6). exists fid, nm, a, l, r, gs, S, r'. auto 8.
Qed.
Lemma step_up cur i next A (K K' : Z -> ast -> Prop) : (forall pc B, K pc B -> up K' pc B) -> step_ok cur i next A (up K) -> step_ok cur i next A (up K').
Proof. intros M. apply step_ok_mono. intros pc B (D & S & Q). destruct (M _ _ Q) as (E & S' & Q'). exists E. split; auto. eapply asub_trans; eauto. Qed.

(** ** Segments *)
Variable C : program.
Variable F : nat -> Z -> Prop.
Hypothesis U : struct_names t.
Hypothesis HK : forall y i a l r, In y (tb_syms t) -> sy_body y = SyFunc i a l r -> (Z.of_nat i < 2^32)%Z.
Hypothesis HX : forall y i a va r c, In y (tb_syms t) -> sy_body y = SyForeign i a va r c -> (Z.of_nat i < 2^32)%Z.
Hypothesis HG : forall y i b g, In y (tb_syms t) -> sy_body y = SyGlobal i b g -> (Z.of_nat i < 2^32)%Z.
Hypothesis HF : forall id fs, sfields t id = Some fs -> length fs <= 255.
Hypothesis HN : forall id fs, sfields t id = Some fs -> NoDup (map fd_name fs).
Hypothesis HU : unique t.
Hypothesis HP : forall f nm i a l r, sym_at t f = Some (mkSym f nm (SyFunc i a l r)) -> positions 0 l /\ positions (Z.of_nat (length a)) a.

Definition tseg (cur : option nat) (X : Z -> ast -> Prop) (L : list nat) (a b : Z) (A B : ast) : Prop :=
  exists m : Z -> option nat -> ast -> Prop,
    up (fun pc D => m pc cur D \/ (pc = b /\ D = B)) a A /\
    (forall pc c D, m pc c D -> exists i next, decode C pc = Ok (i, next) /\
       step_ok c i next D (up (fun pc' D' => m pc' c D' \/ (c = cur /\ ((pc' = b /\ D' = B) \/ X pc' D'))))) /\
    Forall (fun f => exists e, F f e /\ m e (Some f) ([], None)) L.

Lemma up_up (K K' : Z -> ast -> Prop) pc A : up K pc A -> (forall pc B, K pc B -> up K' pc B) -> up K' pc A.
Proof. intros (B & S & Q) M. destruct (M _ _ Q) as (D & S' & Q'). exists D. split; auto. eapply asub_trans; eauto. Qed.
Lemma seg_nil cur X a A : tseg cur X [] a a A A.
Proof. exists (fun _ _ _ => False). split; [apply up_in; auto|]. split; [intros ? ? ? []|constructor]. Qed.
Lemma seg_sub cur X L a b A B B' : tseg cur X L a b A B -> asub B B' -> tseg cur X L a b A B'.
Proof.
  intros (m & I & S & Fn) W. exists m. split; [|split]; auto.
  - eapply up_up; [exact I|]. cbn. intros pc D [Q|(-> & ->)]; [apply up_in; auto|exists B'; auto].
  - intros pc c k H. destruct (S _ _ _ H) as (i & n & Dc & Sp). exists i, n. split; auto. eapply step_up; [|exact Sp].
    intros pc' D' [K|(-> & [(-> & ->)|K])]; try (apply up_in; auto; fail). exists B'. auto 6.
Qed.
Lemma seg_seq cur X L1 L2 a m b A B D : tseg cur X L1 a m A B -> tseg cur X L2 m b B D -> tseg cur X (L1 ++ L2) a b A D.
Proof.
  intros (m1 & I1 & S1 & F1) (m2 & I2 & S2 & F2). exists (fun pc c k => m1 pc c k \/ m2 pc c k). split; [|split].
  - eapply up_up; [exact I1|]. cbn. intros pc k [Q|(-> & ->)]; [apply up_in; auto|]. eapply up_up; [exact I2|]. cbn. intros pc' k' [Q|Q]; apply up_in; auto.
  - intros pc c k [H|H].
    + destruct (S1 _ _ _ H) as (i & n & Dc & Sp). exists i, n. split; auto. eapply step_up; [|exact Sp].
      intros pc' D' [K|(-> & [(-> & ->)|K])]; try (apply up_in; auto; fail). eapply up_up; [exact I2|]. cbn. intros pc2 k' [Q|Q]; apply up_in; auto.
    + destruct (S2 _ _ _ H) as (i & n & Dc & Sp). exists i, n. split; auto. eapply step_up; [|exact Sp].
      intros pc' D' [K|(-> & [(-> & ->)|K])]; apply up_in; auto.
  - apply Forall_app. split; (eapply Forall_impl; [|eassumption]); cbn; intros f (e & ? & ?); eauto.
Qed.
Lemma seg_weak cur (X Y : Z -> ast -> Prop) L a b A B : tseg cur X L a b A B -> (forall pc k, X pc k -> Y pc k) -> tseg cur Y L a b A B.
Proof.
  intros (m & I & S & Fn) W. exists m. split; [|split]; auto.
  intros pc c k H. destruct (S _ _ _ H) as (i & n & Dc & Sp). exists i, n. split; auto. eapply step_up; [|exact Sp].
  intros pc' D' [K|(-> & [(-> & ->)|K])]; apply up_in; auto.
Qed.
Lemma seg_absorb cur X L a b A B : tseg cur (fun pc k => X pc k \/ (pc = b /\ k = B) \/ (pc = a /\ k = A)) L a b A B -> tseg cur X L a b A B.
Proof.
  intros (m & I & S & Fn). exists m. split; [|split]; auto.
  intros pc c k H. destruct (S _ _ _ H) as (i & n & Dc & Sp). exists i, n. split; auto. eapply step_up; [|exact Sp].
  intros pc' D' [K|(-> & [(-> & ->)|[K|[(-> & ->)|(-> & ->)]]])]; try (apply up_in; auto; fail). eapply up_up; [exact I|]. cbn. intros pc2 k' [Q|Q]; apply up_in; auto.
Qed.
(** a function's code inside other code *)
Definition closed (f : nat) (L : list nat) (a : Z) : Prop :=
  exists m : Z -> option nat -> ast -> Prop, m a (Some f) ([], None) /\
    (forall pc c D, m pc c D -> exists i next, decode C pc = Ok (i, next) /\ step_ok c i next D (up (fun pc' D' => m pc' c D'))) /\
    Forall (fun f => exists e, F f e /\ m e (Some f) ([], None)) L.
Lemma seg_close f L a e b B : tseg (Some f) (fun _ _ => False) L a e ([], None) B -> at_i C e IReturn b -> closed f L a.
Proof.
  intros (m & I & S & Fn) R. exists (fun pc c D => m pc c D \/ (pc = e /\ c = Some f /\ D = B)). split; [|split].
  - destruct I as (A' & (S1 & S2) & I). destruct A' as [l r]. cbn in S1, S2. inversion S1; subst. assert (r = None) by (destruct S2; auto). subst r. destruct I as [I|(-> & <-)]; auto.
  - intros pc c D [H|(-> & -> & ->)].
    + destruct (S _ _ _ H) as (i & n & Dc & Sp). exists i, n. split; auto. eapply step_up; [|exact Sp].
      intros pc' D' [K|(-> & [(-> & ->)|[]])]; apply up_in; auto.
    + exists IReturn, b. split; [exact R|exact Logic.I].
  - eapply Forall_impl; [|exact Fn]. cbn. intros g (x & ? & ?). eauto.
Qed.
Lemma seg_proc cur X f L a m b S : jmp C a b m -> closed f L m -> F f m -> tseg cur X (f :: L) a b (S, None) (S, None).
Proof.
  intros (k & J & Ek) (m1 & I & Sp & Fn) Hf. exists (fun pc c D => (pc = a /\ c = cur /\ D = (S, None)) \/ m1 pc c D). split; [apply up_in; auto|]. split.
  - intros pc c D [(-> & -> & ->)|H].
    + exists (IGoto k), m. split; [exact J|]. cbn. rewrite Ek. apply up_in. auto.
    + destruct (Sp _ _ _ H) as (i & n & Dc & St). exists i, n. split; auto. eapply step_up; [|exact St]. intros. apply up_in. auto.
  - constructor; [eauto|]. eapply Forall_impl; [|exact Fn]. cbn. intros g (x & ? & ?). eauto.
Qed.

Lemma seg_point cur X a b A B i : decode C a = Ok (i, b) -> step_ok cur i b A (fun pc' D' => (pc' = b /\ D' = B) \/ X pc' D') -> tseg cur X [] a b A B.
Proof.
  intros D St. exists (fun pc c k => pc = a /\ c = cur /\ k = A). split; [apply up_in; auto|]. split; auto.
  intros pc c k (-> & -> & ->). exists i, b. split; auto. eapply step_ok_mono; [|exact St]. cbn. intros. apply up_in. auto.
Qed.
Lemma seg_i cur X a b A B i : at_i C a i b -> step_ok cur (norm i) b A (fun pc' D' => pc' = b /\ D' = B) -> tseg cur X [] a b A B.
Proof. intros D St. eapply seg_point; [exact D|]. eapply step_ok_mono; [|exact St]. cbn. auto. Qed.
Lemma seg_jmp cur (X : Z -> ast -> Prop) a x b S B : jmp C a x b -> X x (S, None) -> tseg cur X [] a b (S, None) B.
Proof. intros (k & D & E) H. eapply seg_point; [exact D|]. cbn. rewrite E. auto. Qed.
Lemma seg_jz cur (X : Z -> ast -> Prop) a x b S : jz C a x b -> X x (S, None) -> tseg cur X [] a b (GBool :: S, None) (S, None).
Proof. intros (k & D & E) H. eapply seg_point; [exact D|]. cbn. rewrite E. exists S. auto. Qed.
Lemma seg_seq0 cur X a m b A B D : tseg cur X [] a m A B -> tseg cur X [] m b B D -> tseg cur X [] a b A D.
Proof. intros P Q. exact (seg_seq cur X [] [] _ _ _ _ _ _ P Q). Qed.

(** ** Expressions *)
Definition eseg (cur : option nat) (l : Z -> Z -> Prop) (g : tag) : Prop :=
  forall a b S X, l a b -> tseg cur X [] a b (S ++ lbase cur, None) (g :: S ++ lbase cur, None).

Lemma ity_step cur i A B (K : Z -> ast -> Prop) next : ity cur i A B -> K next B -> step_ok cur i next A K.
Proof. intros T Q. assert (E : exists B', ity cur i A B' /\ K next B') by eauto. destruct T; exact E. Qed.
Lemma seg_ity cur X a b A B i : at_i C a i b -> ity cur (norm i) A B -> tseg cur X [] a b A B.
Proof. intros D T. eapply seg_i; [exact D|]. eapply ity_step; eauto. Qed.

Lemma slot_of cur r v : in_scope cur r -> var_of t r = Some v -> forall g S, lv_tag v = Some g -> slot_tag cur (S ++ lbase cur) (lv_index v) g.
Proof.
  intros Sc V g S Tg. destruct r as [id|id|f i|f i]; try discriminate; cbn in Sc; subst cur; cbn [var_of] in V;
    destruct (sym_at t f) as [[fi nm []]|] eqn:Y; try discriminate; pose proof (proj2 (sym_at_in _ _ _ Y)) as E; cbn in E; subst fi;
    destruct (HP _ _ _ _ _ _ Y) as (Pl & Pa).
  - left. exists i, S. split; [rewrite (Pl _ _ V); lia|]. split; auto. unfold locals_of. rewrite Y, nth_error_map, V. cbn. unfold ltag. rewrite Tg. reflexivity.
  - right. exists i, v. unfold params_of. rewrite Y. split; [rewrite (Pa _ _ V); lia|]. auto.
Qed.

Lemma seg_int cur X z a b S : at_i C a (int_instr z) b -> tseg cur X [] a b (S, None) (GInt :: S, None).
Proof. unfold int_instr. intros A. destruct (z =? 0)%Z; [|destruct (z =? 1)%Z]; (eapply seg_ity; [exact A|constructor]). Qed.

Lemma seg_ref cur X r g a b S : at_ref t C r a b -> plain_e t (TId r g) -> in_scope cur r -> ref_tag t r = Some g ->
  tseg cur X [] a b (S ++ lbase cur, None) (g :: S ++ lbase cur, None).
Proof.
  intros A P Sc Rt. destruct r as [id|id|f i|f i]; cbn [at_ref plain_e ref_tag] in *.
  - destruct A as (i & G & A). unfold gidx in G. destruct (sym_at t id) as [[yi nm []]|] eqn:Y; try discriminate. injection G as ->. subst t0.
    apply sym_at_in in Y as (I & _). eapply seg_ity; [exact A|]. cbn [norm]. constructor. pose proof (HG _ _ _ _ I eq_refl).
    rewrite Z.mod_small, Nat2Z.id by lia. exists (mkSym yi nm (SyGlobal i init (Some g))), init. auto.
  - destruct A as (c & E & A). unfold cval in E. destruct (sym_at t id) as [[yi nm []]|] eqn:Y; try discriminate. injection E as ->. injection Rt as <-.
    destruct c.
    + destruct b0; (eapply seg_ity; [exact A|constructor]).
    + eapply seg_int; exact A.
    + eapply seg_ity; [exact A|constructor].
    + destruct A as (_ & A). assert (L : i < 256) by (apply P; unfold cval; rewrite Y; reflexivity). eapply seg_ity; [exact (A L)|constructor].
  - destruct A as (k & E & A). unfold lidx in E. destruct (var_of t (RLocal f i)) as [v|] eqn:V; [|discriminate]. injection E as <-.
    pose proof (slot_of _ _ _ Sc V _ S Rt) as Sl. destruct (_ || _)%bool eqn:Rg.
    + eapply seg_ity; [exact A|]. cbn [norm]. eapply ty_lget; eauto.
    + eapply seg_ity; [exact A|]. cbn [norm]. apply ty_lgetw; auto. destruct (Z.ltb_spec (lv_index v) 0); [discriminate|lia].
  - destruct A as (k & E & A). unfold lidx in E. destruct (var_of t (RArg f i)) as [v|] eqn:V; [|discriminate]. injection E as <-.
    pose proof (slot_of _ _ _ Sc V _ S Rt) as Sl. destruct (_ || _)%bool eqn:Rg.
    + eapply seg_ity; [exact A|]. cbn [norm]. eapply ty_lget; eauto.
    + eapply seg_ity; [exact A|]. cbn [norm]. apply ty_lgetw; auto. destruct (Z.ltb_spec (lv_index v) 0); [discriminate|lia].
Qed.

Lemma segs_seq cur ls gs : Forall2 (eseg cur) ls gs -> forall X a b S, lay_seq ls a b ->
  tseg cur X [] a b (S ++ lbase cur, None) (rev gs ++ S ++ lbase cur, None).
Proof.
  intros Fe X. induction Fe as [|l g ls gs El _ IH]; intros a b S Q; cbn in Q; [subst; apply seg_nil|].
  destruct Q as (m & Q1 & Q2). eapply seg_seq0; [apply El; exact Q1|]. cbn [rev]. rewrite <- app_assoc. cbn [app].
  exact (IH m b (g :: S) Q2).
Qed.

Lemma fit_sub params va gs : fit t params va gs -> exists g1 g2, gs = g1 ++ g2 /\
  Forall2 (fun p g => forall q, p = Some q -> sub t g q) params g1 /\ (va = false -> g2 = []).
Proof.
  revert gs. induction params as [|p params IH]; intros [|g gs]; cbn [fit]; try contradiction.
  - intros _. exists [], []. auto.
  - intros ->. exists [], (g :: gs). split; auto. split; [constructor|discriminate].
  - intros ((q & -> & A) & Ft). destruct (IH _ Ft) as (g1 & g2 & -> & F2 & V). exists (g :: g1), g2. split; auto. split; auto.
    constructor; auto. intros q' [= <-]. apply assign_sub; auto.
Qed.

Lemma seg_call cur X y a b gs S params va g r' : at_call C (Z.of_nat (length gs)) (Some y) a b -> In y (tb_syms t) ->
  sig_of (sy_body y) = Some (params, va, g) -> fit t params va gs -> r' = None \/ r' = g -> tseg cur X [] a b (rev gs ++ S, None) (S, r').
Proof.
  intros (s & i & [= <-] & Ci & A) In0 Sg Ft R. destruct (fit_sub _ _ _ Ft) as (g1 & g2 & Eg & F2 & V).
  destruct y as [yi nm yb]. cbn [sy_body] in *. destruct yb; try discriminate; cbn [call_instr] in Ci; [|destruct (arity_ok _ _ _); [|discriminate Ci]]; injection Ci as <-; injection Sg as <- <- <-.
  - pose proof (HK _ _ _ _ _ In0 eq_refl) as Lt. rewrite (V eq_refl), app_nil_r in Eg. subst g1.
    eapply seg_i; [exact A|]. cbn [norm step_ok]. rewrite Z.mod_small, !Nat2Z.id by lia.
    exists yi, nm, args, locals, ret, gs, S, r'. split; [apply (in_sym_at _ _ HU In0)|]. split; auto.
    assert (F3 : Forall2 (fun a g => forall p, lv_tag a = Some p -> sub t g p) args gs).
    { clear - F2. revert gs F2. induction args as [|x args IH]; intros gs F2; inversion F2; subst; constructor; auto. }
    split; [exact F3|]. split; auto. clear - F3. induction F3; cbn; auto.
  - pose proof (HX _ _ _ _ _ _ In0 eq_refl) as Lt.
    eapply seg_ity; [exact A|]. cbn [norm]. eapply ty_callf with (gs := gs); [exact In0| | | |exact R].
    + rewrite Z.mod_small, Nat2Z.id by lia. reflexivity.
    + apply Nat2Z.id.
    + exists g1, g2. split; auto. split; auto. clear - F2. revert g1 F2. induction args as [|x args IH]; intros g1 F2; inversion F2; subst; constructor; auto.
Qed.
Lemma in_syms_ref f y : reference_function t f = Some y -> In y (tb_syms t).
Proof. unfold reference_function. intros H. apply find_some in H. tauto. Qed.

Lemma fit_enough params va gs : fit_some t params va gs -> length params <= length gs -> fit t params va gs.
Proof.
  revert gs. induction params as [|p params IH]; intros [|g gs]; cbn [fit fit_some length]; try lia; auto.
  intros (A & B) L. split; auto. apply IH; auto. lia.
Qed.

Lemma seg_bin cur o inc one l r X a b S gl gr g : eseg cur l gl -> eseg cur r gr -> bin_ty o gl gr g ->
  (one = true -> gl = GInt /\ g = GInt /\ (inc = IAdd1 \/ inc = ISub1)) -> lay_bin C o inc one l r a b ->
  tseg cur X [] a b (S ++ lbase cur, None) (g :: S ++ lbase cur, None).
Proof.
  intros L R Ty On (m & A & B). destruct one.
  - destruct (On eq_refl) as (-> & -> & Hi). eapply seg_seq0; [apply L; exact A|]. destruct Hi as [->| ->]; (eapply seg_ity; [exact B|constructor]).
  - destruct B as (m' & B & D). eapply seg_seq0; [apply L; exact A|]. eapply seg_seq0; [exact (R _ _ (gl :: S) _ B)|].
    eapply seg_ity; [exact D|]. cbn [app]. constructor. exact Ty.
Qed.

Lemma kind_num k g : numeric k <> None -> kind_of t g = Some k -> is_num g /\ (numeric k = Some true <-> g = GInt).
Proof.
  destruct k; cbn; intros N K; try congruence.
  - apply kind_int in K. subst. split; [left; auto|tauto].
  - apply kind_float in K. subst. split; [right; auto|]. split; discriminate.
Qed.
Lemma bin_tag_ty o ob gl gr kl kr g : kind_of t gl = Some kl -> kind_of t gr = Some kr -> bin_tag o kl kr = Some g -> binop_of o = Some ob -> bin_ty ob gl gr g.
Proof.
  intros Kl Kr Bt Bo.
  destruct o; cbn in Bo; try discriminate; injection Bo as <-; cbn [bin_tag] in Bt; unfold bin_ty; cbn [is_narrow is_wide].
  all: try (destruct kl, kr; try discriminate; injection Bt as <-; apply kind_int in Kl; apply kind_int in Kr; auto; fail).
  all: destruct kl, kr; try discriminate; injection Bt as <-;
    repeat match goal with H : kind_of _ _ = Some KIntT |- _ => apply kind_int in H | H : kind_of _ _ = Some KFloatT |- _ => apply kind_float in H end; subst;
    unfold is_num; auto.
Qed.

Ltac one A := eapply seg_ity; [exact A|constructor].

Lemma find_index_nth {A} (p : A -> bool) l : forall i k, find_index p l i = Some k -> exists x, nth_error l (k - i) = Some x /\ p x = true /\ i <= k.
Proof.
  induction l as [|x l IH]; intros i k E; cbn in E; [discriminate|]. destruct (p x) eqn:Px.
  - injection E as <-. rewrite Nat.sub_diag. exists x. auto.
  - destruct (IH _ _ E) as (y & N & Py & L). exists y. split; [|split; [auto|lia]]. replace (k - i) with (S (k - S i)) by lia. exact N.
Qed.

Lemma segs_pick cur f (names : list text) ls gs : Forall2 (eseg cur) ls gs -> In f (map fst (combine names ls)) ->
  exists i g, nth_error names i = Some f /\ nth_error gs i = Some g /\
    forall X a b S, lay_pick f names ls a b -> tseg cur X [] a b (S ++ lbase cur, None) (g :: S ++ lbase cur, None).
Proof.
  intros Fe. revert names. induction Fe as [|l g ls gs El _ IH]; intros [|nm names]; cbn; try tauto. intros I.
  destruct (text_eqb nm f) eqn:E.
  - apply text_eqb_eq in E. subst nm. exists 0, g. split; auto.
  - destruct I as [->|I]; [rewrite text_eqb_refl in E; discriminate|]. destruct (IH _ I) as (i & g' & N1 & N2 & W). exists (Datatypes.S i), g'. auto.
Qed.

Lemma find_index_first {A} (p : A -> bool) l : forall i k x, (forall j y, j < k -> nth_error l j = Some y -> p y = false) -> nth_error l k = Some x -> p x = true ->
  find_index p l i = Some (i + k).
Proof.
  induction l as [|y l IH]; intros i k x B N P; [destruct k; discriminate|]. cbn. destruct k as [|k].
  - injection N as ->. rewrite P. f_equal. lia.
  - rewrite (B 0 y) by (cbn; auto; lia). rewrite (IH (Datatypes.S i) k x); auto; [f_equal; lia|]. intros j z L N'. apply (B (Datatypes.S j)); [lia|exact N'].
Qed.
Lemma field_own fs j f : NoDup (map fd_name fs) -> nth_error fs j = Some f -> field_index fs (fd_name f) = Some (j, fd_tag f).
Proof.
  intros Nd N. unfold field_index. rewrite (find_index_first _ fs 0 j f); [cbn; rewrite N; reflexivity| |exact N|apply text_eqb_refl].
  intros i y L Ny. destruct (text_eqb (fd_name y) (fd_name f)) eqn:E; auto. apply text_eqb_eq in E. exfalso.
  assert (X : i = j); [|lia]. apply (proj1 (NoDup_nth_error (map fd_name fs)) Nd); [rewrite map_length; apply nth_error_Some; congruence|].
  rewrite !nth_error_map, N, Ny. cbn. congruence.
Qed.

Lemma segs_fields cur all fs names ls gs : Forall2 (eseg cur) ls gs -> Forall (fun f => In (fd_name f) (map fst (combine names ls))) fs ->
  (forall f, In f fs -> exists j, nth_error all j = Some f) -> NoDup (map fd_name all) ->
  (forall i nm g, nth_error names i = Some nm -> nth_error gs i = Some g -> wt_field t all nm g) ->
  exists gs', Forall2 (fun f g => sub t g (fd_tag f)) fs gs' /\
    forall X a b S, lay_fields fs names ls a b -> tseg cur X [] a b (S ++ lbase cur, None) (rev gs' ++ S ++ lbase cur, None).
Proof.
  intros Fe Fi Al Nd W. induction Fi as [|f fs Hf _ IH].
  - exists []. split; [constructor|]. intros X a b S Q. cbn in Q. subst. apply seg_nil.
  - destruct IH as (gs' & F2 & Sg); [intros; apply Al; right; auto|]. destruct (segs_pick cur (fd_name f) names ls gs Fe Hf) as (i & g & N1 & N2 & Pk).
    exists (g :: gs'). split.
    + constructor; auto. destruct (W _ _ _ N1 N2) as (k & g' & Ef & As). destruct (Al f (or_introl eq_refl)) as (j & Nj). rewrite (field_own _ _ _ Nd Nj) in Ef.
      injection Ef as <- <-. apply assign_sub; auto.
    + intros X a b S (m & Q1 & Q2). eapply seg_seq0; [apply Pk; exact Q1|]. cbn [rev]. rewrite <- app_assoc. cbn [app]. exact (Sg X m b (g :: S) Q2).
Qed.

Lemma esegs cur es : Forall (fun e => eseg cur (lay t C e) (tag_of e)) es -> Forall2 (eseg cur) (map (lay t C) es) (map tag_of es).
Proof. induction 1; cbn; constructor; auto. Qed.

Lemma scope_app cur (a b : list vref) : Forall (in_scope cur) (a ++ b) -> Forall (in_scope cur) a /\ Forall (in_scope cur) b.
Proof. apply Forall_app. Qed.
Lemma scope_in cur es e : Forall (in_scope cur) (flat_map erefs es) -> In e es -> Forall (in_scope cur) (erefs e).
Proof. intros Fa I. apply Forall_forall. intros r Ir. apply (proj1 (Forall_forall _ _) Fa). apply in_flat_map. eauto. Qed.

Lemma expr_seg cur e : plain_e t e -> wt_e t e -> static_e t e -> Forall (in_scope cur) (erefs e) -> eseg cur (lay t C e) (tag_of e).
Proof.
  assert (Sub : forall es, Forall (fun e => plain_e t e -> wt_e t e -> static_e t e -> Forall (in_scope cur) (erefs e) -> eseg cur (lay t C e) (tag_of e)) es ->
    all_of (map (plain_e t) es) -> all_of (map (wt_e t) es) -> all_of (map (static_e t) es) -> Forall (in_scope cur) (flat_map erefs es) ->
    Forall2 (eseg cur) (map (lay t C) es) (map tag_of es)).
  { intros es IH P W St Sc. apply esegs. apply Forall_forall. intros x I. apply all_forall in P. apply all_forall in W. apply all_forall in St.
    rewrite Forall_forall in IH, P, W, St. apply IH; auto. eapply scope_in; eauto. }
  induction e using texpr_ind'; intros P W St Sc a0 b0 S X L; cbn [lay] in L; cbn [plain_e] in P; cbn [wt_e] in W; cbn [static_e] in St; cbn [erefs] in Sc; cbn [tag_of];
    try (one L; fail); try (eapply seg_int; exact L); try (apply IHe; auto; fail).
  - destruct b; one L.
  - destruct L as (_ & L). specialize (L P). one L.
  - inversion Sc; subst. eapply seg_ref; eauto.
  - (* call *) destruct L as (m1 & m2 & L & L1 & L2). destruct W as (W & y & params & va & Ey & Sg & Ft). destruct St as (En & St).
    pose proof (segs_seq cur _ _ (Sub _ H P W St Sc) X _ _ S L) as S1. eapply seg_seq0; [exact S1|].
    assert (Ft' : fit t params va (map tag_of args)) by (apply fit_enough; auto; rewrite map_length; eapply En; eauto).
    rewrite Ey in L1. rewrite <- (map_length tag_of args) in L1.
    eapply seg_seq0; [eapply seg_call with (r' := Some t0); [exact L1|apply (in_syms_ref _ _ Ey)|exact Sg|exact Ft'|auto]|]. one L2.
  - (* binary *) destruct P as (P1 & P2). destruct W as (W1 & W2 & kl & kr & Kl & Kr & Bt). destruct St as (St1 & St2 & St3). apply scope_app in Sc as (Sc1 & Sc2).
    specialize (IHe1 P1 W1 St1 Sc1). specialize (IHe2 P2 W2 St2 Sc2).
    assert (Num : forall ob, binop_of o = Some ob -> bin_ty ob (tag_of e1) (tag_of e2) t0) by (intros; eapply bin_tag_ty; eauto).
    assert (NoOne : forall inc : instr, false = true -> tag_of e1 = GInt /\ t0 = GInt /\ (inc = IAdd1 \/ inc = ISub1)) by discriminate.
    assert (One : forall ob inc, binop_of o = Some ob -> (ob = OAdd \/ ob = OSub) -> (inc = IAdd1 \/ inc = ISub1) -> (is_one e2 = true -> tag_of e1 = GInt) ->
      is_one e2 = true -> tag_of e1 = GInt /\ t0 = GInt /\ (inc = IAdd1 \/ inc = ISub1)).
    { intros ob inc Eo Ho Hi G1 O1. specialize (G1 O1). split; auto. split; auto. pose proof (Num _ Eo) as Ty. unfold bin_ty in Ty.
      destruct e2; try discriminate O1. rewrite G1 in Ty. destruct Ho as [-> | ->]; cbn in Ty; tauto. }
    destruct o; cbn [binop_of] in L;
      try (eapply seg_bin; [exact IHe1|exact IHe2|apply Num; reflexivity|apply NoOne|exact L]; fail).
    + eapply seg_bin; [exact IHe1|exact IHe2|apply Num; reflexivity| |exact L]. apply (One OAdd IAdd1); auto.
    + eapply seg_bin; [exact IHe1|exact IHe2|apply Num; reflexivity| |exact L]. apply (One OSub ISub1); auto.
    + assert (t0 = GBool) by (clear - Bt; cbn in Bt; destruct kl, kr; congruence). subst t0.
      destruct L as (m1 & m2 & A & B & D). eapply seg_seq0; [apply IHe1; exact A|]. eapply seg_seq0; [exact (IHe2 _ _ (tag_of e1 :: S) _ B)|]. one D.
    + assert (t0 = GBool) by (clear - Bt; cbn in Bt; destruct kl, kr; congruence). subst t0.
      destruct L as (m1 & m2 & m3 & A & B & D & E). eapply seg_seq0; [apply IHe1; exact A|]. eapply seg_seq0; [exact (IHe2 _ _ (tag_of e1 :: S) _ B)|].
      eapply seg_seq0; [one D|]. one E.
    + assert (E1 : kl = KBoolT /\ kr = KBoolT /\ t0 = GBool) by (clear - Bt; cbn in Bt; destruct kl, kr; try discriminate; injection Bt as <-; auto).
      destruct E1 as (-> & -> & ->). apply kind_bool in Kl. apply kind_bool in Kr. rewrite Kl in IHe1. rewrite Kr in IHe2.
      destruct L as (m1 & m2 & m3 & m4 & A & Jz & B & Jm & D). apply seg_absorb.
      assert (S1 : forall Y : Z -> ast -> Prop, Y b0 (GBool :: S ++ lbase cur, None) -> tseg cur Y [] a0 m4 (S ++ lbase cur, None) (S ++ lbase cur, None)).
      { intros Y Hy. apply seg_absorb. eapply seg_seq0; [apply IHe1; exact A|]. eapply seg_seq0; [eapply seg_jz; [exact Jz|auto]|].
        eapply seg_seq0; [apply IHe2; exact B|]. eapply seg_jmp; [exact Jm|auto]. }
      eapply seg_seq0; [apply S1; auto|]. one D.
    + assert (E1 : kl = KBoolT /\ kr = KBoolT /\ t0 = GBool) by (clear - Bt; cbn in Bt; destruct kl, kr; try discriminate; injection Bt as <-; auto).
      destruct E1 as (-> & -> & ->). apply kind_bool in Kl. apply kind_bool in Kr. rewrite Kl in IHe1. rewrite Kr in IHe2.
      destruct L as (m1 & m2 & m3 & m4 & A & Jz & B & Jm & D). apply seg_absorb.
      assert (S1 : forall Y : Z -> ast -> Prop, Y b0 (GBool :: S ++ lbase cur, None) -> tseg cur Y [] a0 m4 (S ++ lbase cur, None) (S ++ lbase cur, None)).
      { intros Y Hy. apply seg_absorb. eapply seg_seq0; [apply IHe1; exact A|]. eapply seg_seq0; [eapply seg_jz; [exact Jz|auto]|].
        eapply seg_seq0; [one B|]. eapply seg_jmp; [exact Jm|auto]. }
      eapply seg_seq0; [apply S1; auto|]. apply IHe2. exact D.
  - (* unary *) destruct W as (W & k & Kk & Ut). specialize (IHe P W St Sc). destruct o.
    + assert (Nm : is_num (tag_of e) /\ t0 = tag_of e).
      { cbn in Ut. destruct k; try discriminate; injection Ut as <-; [apply kind_int in Kk|apply kind_float in Kk]; rewrite Kk; unfold is_num; auto. }
      destruct Nm as (Nm & ->).
      assert (Wd : (exists m1 m2, lay t C e a0 m1 /\ at_i C m1 (IPushInt (-1)) m2 /\ at_i C m2 (IBin OMul) b0) -> tseg cur X [] a0 b0 (S ++ lbase cur, None) (tag_of e :: S ++ lbase cur, None)).
      { intros (m1 & m2 & A & B & D). eapply seg_seq0; [apply IHe; exact A|]. eapply seg_seq0; [one B|]. one D. unfold bin_ty. cbn. split; [exact Nm|]. split; [left; auto|].
        destruct Nm as [->| ->]; reflexivity. }
      destruct e; try exact (Wd L). one L.
    + assert (E1 : tag_of e = GBool /\ t0 = GBool) by (cbn in Ut; destruct k; try discriminate; injection Ut as <-; apply kind_bool in Kk; auto).
      destruct E1 as (E1 & ->). rewrite E1 in IHe. destruct L as (m & A & B). eapply seg_seq0; [apply IHe; exact A|]. one B.
  - (* new *) destruct L as (fs & m & E & L & A). destruct P as (P & Q). specialize (Q _ E). pose proof (HF _ _ E) as Hf. pose proof (HN _ _ E) as Hn.
    destruct W as (W & fs' & E' & Wn). rewrite E in E'. injection E' as <-. pose proof (Sub _ H P W St Sc) as Fe.
    assert (S1 : exists gs, Forall2 (fun f g => sub t g (fd_tag f)) fs gs /\ tseg cur X [] a0 m (S ++ lbase cur, None) (rev gs ++ S ++ lbase cur, None)).
    { destruct ns.
      - exists (map tag_of args). split; [|apply (segs_seq _ _ _ Fe); exact L]. rewrite <- (map_length tag_of) in Q. revert Q Wn. generalize (map tag_of args) as gs. clear - U.
        induction fs as [|f fs IH]; intros [|g gs] Q Wn; try discriminate; constructor.
        + apply assign_sub; auto. apply (Wn 0); reflexivity.
        + apply IH; [cbn in Q; lia|]. intros i. apply (Wn (Datatypes.S i)).
      - destruct (segs_fields cur fs fs (t1 :: ns) _ _ Fe) as (gs & F2 & Sg).
        + eapply Forall_impl; [|exact Q]. intros f If. apply in_map_iff in If as ((x & y) & Ex & If). apply in_map_iff. exists (x, lay t C y). split; auto.
          revert If. generalize (t1 :: ns) as names. clear. intros names. revert names. induction args as [|e args IH]; intros [|n names]; cbn; try tauto. intros [[= -> ->]|If]; auto.
        + intros f If. apply In_nth_error in If. exact If.
        + exact Hn.
        + exact Wn.
        + exists gs. split; [exact F2|apply Sg; exact L]. }
    destruct S1 as (gs & F2 & S1). eapply seg_seq0; [exact S1|]. eapply seg_ity; [exact A|]. cbn [norm]. eapply ty_struct; [exact E| |exact F2]. rewrite Z.mod_small, Nat2Z.id by lia. reflexivity.
  - (* cast *) destruct St as (St & Ka). eapply seg_sub; [apply IHe; auto|]. split; [|left; reflexivity]. cbn [fst]. constructor; [|apply subs_refl]. intros S0 v _. apply has_open. auto.
  - (* dot *) destruct L as (m & k & Fk & A & B). destruct W as (W & id & fs & k' & Et & Es & Ef). eapply seg_seq0; [apply IHe; [exact P|exact W|exact St|exact Sc|exact A]|].
    rewrite Et in *. unfold field_no in Fk. unfold sfields in Es. destruct (sym_at t id) as [[yi nm []]|] eqn:Y; try discriminate. destruct defined; try discriminate. injection Es as ->.
    rewrite Ef in Fk. injection Fk as <-. unfold field_index in Ef. destruct (find_index _ fs 0) as [j|]; try discriminate. destruct (nth_error fs j) as [fd|] eqn:N; try discriminate. injection Ef as <- <-.
    eapply seg_ity; [exact B|]. cbn [norm]. eapply ty_get; [unfold sfields; rewrite Y; reflexivity|]. rewrite Nat2Z.id. exact N.
  - (* index *) destruct L as (m1 & m2 & m3 & A & B & D & E). destruct P as (P1 & P2). destruct W as (W1 & W2 & y & params & va & Ey & Sg). destruct St as (St1 & St2 & Ft).
    apply scope_app in Sc as (Sc1 & Sc2). eapply seg_seq0; [apply IHe1; [exact P1|exact W1|exact St1|exact Sc1|exact A]|].
    eapply seg_seq0; [exact (IHe2 P2 W2 St2 Sc2 _ _ (tag_of e1 :: S) _ B)|]. rewrite Ey in D.
    eapply seg_seq0; [eapply seg_call with (r' := Some t0) (gs := [tag_of e1; tag_of e2]); [exact D|apply (sym_at_in _ _ _ Ey)|exact Sg|eapply Ft; eauto|auto]|]. one E.
  - (* conditional *) destruct P as (P1 & P2 & P3). destruct W as (W1 & W2 & W3 & Kc & Ta & Tb). destruct St as (St1 & St2 & St3).
    apply scope_app in Sc as (Sc1 & Sc). apply scope_app in Sc as (Sc2 & Sc3). specialize (IHe1 P1 W1 St1 Sc1). specialize (IHe2 P2 W2 St2 Sc2). specialize (IHe3 P3 W3 St3 Sc3).
    apply kind_bool in Kc. rewrite Kc in IHe1. rewrite Ta in IHe2. rewrite Tb in IHe3.
    destruct L as (m1 & m2 & m3 & m4 & A & Jz & B & Jm & D). apply seg_absorb.
    assert (S1 : forall Y : Z -> ast -> Prop, Y b0 (t0 :: S ++ lbase cur, None) -> tseg cur Y [] a0 m4 (S ++ lbase cur, None) (S ++ lbase cur, None)).
    { intros Y Hy. apply seg_absorb. eapply seg_seq0; [apply IHe1; exact A|]. eapply seg_seq0; [eapply seg_jz; [exact Jz|auto]|].
      eapply seg_seq0; [apply IHe2; exact B|]. eapply seg_jmp; [exact Jm|auto]. }
    eapply seg_seq0; [apply S1; auto|]. apply IHe3. exact D.
Qed.

(** ** Statements *)
Lemma assign_num g g' : assign_ok t g g' -> is_num g' -> g = g'.
Proof.
  intros (n & A) Nm. destruct n as [|n]; [discriminate|]. cbn [assignable] in A. destruct (kind_of t g) as [ks|] eqn:Kg; [|discriminate].
  destruct Nm as [->| ->]; cbn [kind_of] in A; destruct ks; try discriminate A; cbn [same_kind] in A; try discriminate A.
  - apply kind_int in Kg. auto.
  - apply kind_float in Kg. auto.
Qed.
Lemma compound_bin op o g : compound_op op = Some o -> compound_typed o g -> bin_ty o g g g.
Proof.
  intros E Ty. unfold bin_ty, is_num. destruct op; try discriminate E; injection E as <-; cbn [is_narrow is_wide]; destruct Ty as [->|(-> & N)]; try discriminate N; auto.
Qed.

Lemma rhs_seg cur op l r : plain_e t l -> plain_e t r -> wt_e t l -> wt_e t r -> static_e t l -> static_e t r ->
  Forall (in_scope cur) (erefs l) -> Forall (in_scope cur) (erefs r) -> assign_ok t (tag_of r) (tag_of l) ->
  (forall o, compound_op op = Some o -> compound_typed o (tag_of l)) ->
  exists g, sub t g (tag_of l) /\ eseg cur (lay_rhs t C op l r) g.
Proof.
  intros Pl Pr Wl Wr Stl Str Scl Scr As Cp. pose proof (expr_seg cur l Pl Wl Stl Scl) as Sl. pose proof (expr_seg cur r Pr Wr Str Scr) as Sr.
  unfold lay_rhs. destruct (compound_op op) as [o|] eqn:Eo.
  - exists (tag_of l). split; [apply sub_refl|]. specialize (Cp _ eq_refl). pose proof (compound_bin _ _ _ Eo Cp) as Ty.
    assert (Nm : is_num (tag_of l)) by (destruct Cp as [->|(-> & _)]; [left|right]; auto).
    pose proof (assign_num _ _ As Nm) as Er. rewrite Er in Sr.
    assert (On : forall inc, inc = IAdd1 \/ inc = ISub1 -> is_one r = true -> tag_of l = GInt /\ tag_of l = GInt /\ (inc = IAdd1 \/ inc = ISub1)).
    { intros inc Hi O1. destruct r; try discriminate O1. cbn in Er. rewrite <- Er. auto. }
    intros a b S X L. destruct o; (eapply seg_bin; [exact Sl|exact Sr|exact Ty| |exact L]); try discriminate; auto.
  - exists (tag_of r). split; [apply assign_sub; auto|]. exact Sr.
Qed.

Lemma set_seg cur v g g' X a b : at_set t C v a b -> in_scope cur v -> ref_tag t v = Some g' -> sub t g g' ->
  tseg cur X [] a b (g :: lbase cur, None) (lbase cur, None).
Proof.
  intros A Sc Rt Sb. destruct v as [id|id|f i|f i]; cbn [at_set] in A; try contradiction.
  - cbn [ref_tag] in Rt. destruct A as (i & G & A). unfold gidx in G. destruct (sym_at t id) as [[yi nm []]|] eqn:Y; try discriminate. injection G as ->. subst t0.
    apply sym_at_in in Y as (I & _). eapply seg_ity; [exact A|]. cbn [norm]. eapply ty_gset; [|exact Sb]. pose proof (HG _ _ _ _ I eq_refl).
    rewrite Z.mod_small, Nat2Z.id by lia. exists (mkSym yi nm (SyGlobal i init (Some g'))), init. auto.
  - destruct A as (k & E & A). unfold lidx in E. unfold ref_tag in Rt. destruct (var_of t (RLocal f i)) as [v|] eqn:V; [|discriminate]. injection E as <-.
    eapply seg_ity; [exact A|]. cbn [norm]. eapply ty_lset; [exact (slot_of _ _ _ Sc V _ [] Rt)|reflexivity|exact Sb].
  - destruct A as (k & E & A). unfold lidx in E. unfold ref_tag in Rt. destruct (var_of t (RArg f i)) as [v|] eqn:V; [|discriminate]. injection E as <-.
    eapply seg_ity; [exact A|]. cbn [norm]. eapply ty_lset; [exact (slot_of _ _ _ Sc V _ [] Rt)|reflexivity|exact Sb].
Qed.

Lemma assign_seg cur op l r X a b : plain_e t l -> plain_e t r -> wt_e t l -> wt_e t r -> static_asg t op l r ->
  Forall (in_scope cur) (erefs l) -> Forall (in_scope cur) (erefs r) -> assign_ok t (tag_of r) (tag_of l) ->
  lay_assign t C op l r a b -> tseg cur X [] a b (lbase cur, None) (lbase cur, None).
Proof.
  intros Pl Pr Wl Wr (Stl & Str & Cp & Ix) Scl Scr As. destruct (rhs_seg cur op l r Pl Pr Wl Wr Stl Str Scl Scr As Cp) as (g & Sb & Sr).
  unfold lay_assign. destruct l; try contradiction.
  - intros (m & A & B). eapply seg_seq0; [exact (Sr _ _ [] _ A)|]. inversion Scl; subst. eapply set_seg; eauto.
  - intros (m1 & m2 & k & A & Fk & B & D). eapply seg_seq0; [exact (Sr _ _ [] _ A)|]. cbn [plain_e wt_e static_e erefs tag_of] in *.
    destruct Wl as (W & id & fs & k' & Et & Es & Ef). eapply seg_seq0; [exact (expr_seg cur l Pl W Stl Scl _ _ [g] _ B)|].
    rewrite Et in *. unfold field_no in Fk. unfold sfields in Es. destruct (sym_at t id) as [[yi nm []]|] eqn:Y; try discriminate. destruct defined; try discriminate. injection Es as ->.
    rewrite Ef in Fk. injection Fk as <-. unfold field_index in Ef. destruct (find_index _ fs 0) as [j|]; try discriminate. destruct (nth_error fs j) as [fd|] eqn:N; try discriminate. injection Ef as <- <-.
    eapply seg_ity; [exact D|]. cbn [norm]. eapply ty_set; [unfold sfields; rewrite Y; reflexivity| |exact Sb]. rewrite Nat2Z.id. exact N.
  - intros (m1 & m2 & m3 & f & -> & A & B & D & E). cbn [plain_e wt_e static_e erefs tag_of] in *. destruct Pl as (P1 & P2). destruct Wl as (W1 & W2 & _). destruct Stl as (St1 & St2 & _).
    apply scope_app in Scl as (Sc1 & Sc2). eapply seg_seq0; [exact (expr_seg cur _ P1 W1 St1 Sc1 _ _ [] _ A)|].
    eapply seg_seq0; [exact (expr_seg cur _ P2 W2 St2 Sc2 _ _ [tag_of l1] _ B)|]. eapply seg_seq0; [exact (Sr _ _ [tag_of l2; tag_of l1] _ D)|].
    destruct E as (y & i & Ey & Ci & E).
    assert (Sg : exists params va ret, sig_of (sy_body y) = Some (params, va, ret)) by (destruct (sy_body y); try discriminate Ci; cbn; eauto).
    destruct Sg as (params & va & ret & Sg). pose proof (Ix _ _ _ _ Ey Sg) as Ft.
    eapply seg_sub with (B := (lbase cur, None)); [|apply asub_refl].
    pose proof (seg_call cur X y m3 b [tag_of l1; tag_of l2; t0] (lbase cur) params va ret None) as Cl.
    assert (Cl' : tseg cur X [] m3 b (rev [tag_of l1; tag_of l2; t0] ++ lbase cur, None) (lbase cur, None)).
    { apply Cl; auto; [|apply (sym_at_in _ _ _ Ey)]. exists y, i. auto. }
    eapply (seg_seq0 _ _ m3 m3 b); [|exact Cl']. eapply seg_sub; [apply seg_nil|]. split; [|auto]. cbn. constructor; [exact Sb|]. apply subs_refl.
Qed.

Definition exits (loop : bool) (T : bool -> Z -> Prop) (X : Z -> ast -> Prop) (A : ast) : Prop := loop = true -> forall k x, T k x -> X x A.
Lemma exits_more loop T X (Y : Z -> ast -> Prop) h : exits loop T X h -> (forall pc k, X pc k -> Y pc k) -> exits loop T Y h.
Proof. intros E W L k x H. apply W. eapply E; eauto. Qed.
Lemma no_exits T X h : exits false T X h.
Proof. intros E. discriminate. Qed.

Definition scoped_s (cur : option nat) (s : tstmt) : Prop :=
  Forall (in_scope cur) (srefs s) /\ Forall (fun p => Forall (in_scope (Some (fst p))) (srefs (snd p))) (bodies s).
Definition good_s (cur : option nat) (loop : bool) (s : tstmt) : Prop := plain_s t loop s /\ wt_s t cur s /\ static_s t s /\ scoped_s cur s.
Definition sseg (s : tstmt) : Prop := forall cur loop T X a b p, lay_stmt t C F T s a b p -> good_s cur loop s -> exits loop T X (lbase cur, None) ->
  tseg cur X (ids_of s) a b (lbase cur, None) (lbase cur, None).

Lemma goods_cons cur loop s ss : plain_s t loop s /\ all_of (map (plain_s t loop) ss) -> wt_s t cur s /\ all_of (map (wt_s t cur) ss) ->
  static_s t s /\ all_of (map (static_s t) ss) -> Forall (in_scope cur) (srefs s ++ flat_map srefs ss) ->
  Forall (fun p => Forall (in_scope (Some (fst p))) (srefs (snd p))) (bodies s ++ flat_map bodies ss) -> good_s cur loop s.
Proof. intros (P & _) (W & _) (S & _) Sc Sb. apply scope_app in Sc as (Sc & _). apply Forall_app in Sb as (Sb & _). repeat split; auto. Qed.

Lemma block_seg ss (IH : Forall sseg ss) : forall cur loop T X a b p, lay_stmts (map (lay_stmt t C F T) ss) a b p ->
  all_of (map (plain_s t loop) ss) -> all_of (map (wt_s t cur) ss) -> all_of (map (static_s t) ss) -> Forall (in_scope cur) (flat_map srefs ss) ->
  Forall (fun p => Forall (in_scope (Some (fst p))) (srefs (snd p))) (flat_map bodies ss) ->
  exits loop T X (lbase cur, None) -> tseg cur X (map fst (flat_map bodies ss)) a b (lbase cur, None) (lbase cur, None).
Proof.
  induction IH as [|s ss Hs _ IH]; intros cur loop T X a b p L P W St Sc Sb E.
  - destruct L as (-> & _). apply seg_nil.
  - cbn [map lay_stmts] in L. destruct L as (m & p1 & p2 & A & B & _). cbn [map all_of fold_right] in P, W, St. cbn [flat_map] in *. rewrite map_app.
    pose proof (goods_cons _ _ _ _ P W St Sc Sb) as G. apply scope_app in Sc as (_ & Sc). apply Forall_app in Sb as (_ & Sb).
    eapply seg_seq; [eapply Hs; eauto|]. eapply IH; eauto; [apply P|apply W|apply St].
Qed.

Lemma stmt_seg s : sseg s.
Proof.
  unfold sseg. induction s using tstmt_ind'; intros cur loop T X a0 b0 p0 L (P & W & St & Sc & Sb) Ex; cbn [lay_stmt] in L; cbn [plain_s] in P; cbn [wt_s] in W; cbn [static_s] in St;
    cbn [srefs] in Sc; cbn [bodies] in Sb; unfold ids_of; cbn [bodies map];
    try (destruct L as (-> & _); apply seg_nil); try contradiction.
  - (* call *) destruct L as ((m & A & B) & _). destruct W as (W & g & y & params & va & Ey & Sg & Ft). destruct St as (En & St).
    assert (Fe : Forall2 (eseg cur) (map (lay t C) a) (map tag_of a)).
    { apply esegs. apply Forall_forall. intros x I. apply all_forall in P. apply all_forall in W. apply all_forall in St. rewrite Forall_forall in P, W, St.
      apply expr_seg; auto. eapply scope_in; eauto. }
    pose proof (segs_seq cur _ _ Fe X _ _ [] A) as S1. eapply seg_seq0; [exact S1|].
    assert (Ft' : fit t params va (map tag_of a)) by (apply fit_enough; auto; rewrite map_length; eapply En; eauto).
    rewrite Ey in B. rewrite <- (map_length tag_of a) in B. eapply seg_call with (r' := None); [exact B|apply (in_syms_ref _ _ Ey)|exact Sg|exact Ft'|auto].
  - (* declaration *) destruct L as (L & _). unfold lay_assign in L. destruct L as (m & A & B). unfold lay_rhs in A. cbn in A. destruct W as (W & Rt). inversion Sc; subst.
    eapply seg_seq0; [exact (expr_seg cur _ P W St H2 _ _ [] _ A)|]. eapply set_seg; eauto. apply sub_refl.
  - (* assignment *) destruct L as (L & _). destruct P as (P1 & P2). destruct W as (W1 & W2 & As). apply scope_app in Sc as (Sc1 & Sc2).
    exact (assign_seg cur _ _ _ X _ _ P1 P2 W1 W2 St Sc1 Sc2 As L).
  - (* block *) exact (block_seg ss H cur loop T X a0 b0 p0 L P W St Sc Sb Ex).
  - (* function *)
    destruct L as (_ & m & J & Fm & i & args & locals & ret & m1 & m2 & Sy & Ln & A & (q & B) & R). inversion Sb as [|? ? Sf Sb']; subst. cbn [fst snd] in Sf.
    eapply seg_proc; [exact J| |exact Fm]. eapply seg_close with (B := (lbase (Some f), None)); [|exact R].
    apply (seg_seq (Some f) _ [] (ids_of s) m m1 m2 _ (lbase (Some f), None)).
    + assert (Lo : lbase (Some f) = rev (map ltag locals)).
      { unfold lbase, locals_of. destruct (sym_at t f) as [[yi nm yb]|]; try discriminate. cbn in Sy. injection Sy as ->. reflexivity. }
      rewrite Lo. destruct (Nat.ltb_spec 0 (length locals)).
      * eapply seg_ity; [exact A|]. cbn [norm]. pose proof (ty_nulls (Some f) (Z.of_nat (length locals)) (rev (map ltag locals)) [] None) as Ty. rewrite app_nil_r in Ty. apply Ty.
        rewrite Nat2Z.id, rev_length, map_length. reflexivity.
      * subst m1. destruct locals; [|cbn in *; lia]. apply seg_nil.
    + eapply (IHs (Some f) false anywhere); [exact B|repeat split; auto|apply no_exits].
  - (* if *) destruct P as (Pc & Pa & Pb). destruct W as ((Wc & Kc) & Wa & Wb). destruct St as (Stc & Sta & Stb). apply kind_bool in Kc. destruct b as [s2|].
    + destruct L as (m1 & m2 & m3 & m4 & p1 & p2 & A & J & B & Jm & D & _). apply scope_app in Sc as (Sc1 & Sc). apply scope_app in Sc as (Sc2 & Sc3). apply Forall_app in Sb as (Sb1 & Sb2).
      apply seg_absorb. rewrite map_app. pose proof (expr_seg cur _ Pc Wc Stc Sc1) as Ec. rewrite Kc in Ec.
      set (Y := fun pc (k : ast) => X pc k \/ (pc = b0 /\ k = (lbase cur, None)) \/ (pc = a0 /\ k = (lbase cur, None))).
      assert (S1 : tseg cur Y (ids_of s) a0 m4 (lbase cur, None) (lbase cur, None)).
      { apply seg_absorb. eapply (seg_seq _ _ [] (ids_of s)); [exact (Ec _ _ [] _ A)|]. eapply (seg_seq _ _ [] (ids_of s)); [eapply seg_jz; [exact J|auto]|].
        rewrite <- (app_nil_r (ids_of s)). eapply seg_seq; [eapply IHs; [exact B|repeat split; eauto|eapply exits_more; [exact Ex|]; unfold Y; auto]|eapply seg_jmp; [exact Jm|unfold Y; auto]]. }
      eapply seg_seq; [exact S1|eapply (H s2 eq_refl); [exact D|repeat split; eauto|eapply exits_more; [exact Ex|]; unfold Y; auto]].
    + destruct L as (m1 & m2 & A & J & B). apply scope_app in Sc as (Sc1 & Sc2). pose proof (expr_seg cur _ Pc Wc Stc Sc1) as Ec. rewrite Kc in Ec.
      apply seg_absorb. eapply (seg_seq _ _ [] (ids_of s)); [exact (Ec _ _ [] _ A)|].
      eapply (seg_seq _ _ [] (ids_of s)); [eapply seg_jz; [exact J|auto]|]. eapply IHs; [exact B|repeat split; eauto|]. eapply exits_more; [exact Ex|auto].
  - (* while *) destruct P as (Pc & Pb). destruct W as ((Wc & Kc) & Wb). destruct St as (Stc & Stb). apply kind_bool in Kc. destruct L as (_ & m1 & m2 & m3 & q & A & J & B & Jm).
    apply scope_app in Sc as (Sc1 & Sc2). pose proof (expr_seg cur _ Pc Wc Stc Sc1) as Ec. rewrite Kc in Ec. apply seg_absorb.
    eapply (seg_seq _ _ [] (ids_of s)); [exact (Ec _ _ [] _ A)|]. eapply (seg_seq _ _ [] (ids_of s)); [eapply seg_jz; [exact J|auto]|].
    rewrite <- (app_nil_r (ids_of s)). eapply seg_seq; [eapply (IHs cur true); [exact B|repeat split; eauto|]|eapply seg_jmp; [exact Jm|auto]].
    intros _ k x ->. destruct k; auto.
  - (* for *) destruct P as (Pi & Pc & Ps & Pb). destruct W as (Wi & (Wc & Kc) & Ws & Wb). destruct St as (Sti & Stc & Sts & Stb). apply kind_bool in Kc.
    destruct L as (_ & m0 & m1 & m2 & m3 & m4 & q1 & q2 & q3 & A & B & J & D & E & Jm). rewrite !map_app.
    apply scope_app in Sc as (Sc1 & Sc). apply scope_app in Sc as (Sc2 & Sc). apply scope_app in Sc as (Sc3 & Sc4).
    apply Forall_app in Sb as (Sb1 & Sb). apply Forall_app in Sb as (Sb2 & Sb3). pose proof (expr_seg cur _ Pc Wc Stc Sc2) as Ec. rewrite Kc in Ec.
    apply seg_absorb.
    eapply seg_seq; [eapply (IHs1 cur false); [exact A|repeat split; eauto|apply no_exits]|].
    apply seg_absorb. eapply (seg_seq _ _ [] (ids_of s3 ++ ids_of s2)); [exact (Ec _ _ [] _ B)|]. eapply (seg_seq _ _ [] (ids_of s3 ++ ids_of s2)); [eapply seg_jz; [exact J|auto]|].
    eapply seg_seq; [apply seg_absorb; eapply (IHs3 cur true); [exact D|repeat split; eauto|]|].
    + intros _ k x ->. destruct k; auto 6.
    + rewrite <- (app_nil_r (ids_of s2)). eapply seg_seq; [eapply (IHs2 cur false); [exact E|repeat split; eauto|apply no_exits]|eapply seg_jmp; [exact Jm|auto]].
  - (* return *) destruct e as [e|].
    + destruct L as (_ & m & A & B). destruct W as (W & g & Rg & As). eapply seg_seq0; [exact (expr_seg cur _ P W St Sc _ _ [] _ A)|]. eapply seg_i; [exact B|]. cbn [norm step_ok fst].
      exists (tag_of e), (lbase cur), g. split; [reflexivity|]. split; auto. apply assign_sub; auto.
    + destruct L as (_ & L). eapply seg_i; [exact L|]. exact Logic.I.
  - (* break *) destruct L as (x & J & Hx & _). eapply seg_jmp; [exact J|]. eapply Ex; eauto.
  - (* continue *) destruct L as (x & J & Hx & _). eapply seg_jmp; [exact J|]. eapply Ex; eauto.
Qed.
End Code.
