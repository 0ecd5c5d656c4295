(** * The type checker and the typing rules: proofs *)
From Verif Require Import Base Token Values Syntax Symbols Resolve Typing.
Local Open Scope nat_scope.

(** ** Lookups *)
Lemma find_first {A} (p : A -> bool) (P : A -> Prop) l x : (forall y, p y = true <-> P y) -> find p l = Some x <-> first P l x.
Proof.
  intros R. split.
  - revert x. induction l as [|y l IH]; cbn; [discriminate|]. intros x. destruct (p y) eqn:Q.
    + intros [= <-]. exists [], l. split; [|split]; auto. apply R. exact Q.
    + intros F. destruct (IH _ F) as (b & a & -> & Px & Fb). exists (y :: b), a. split; [reflexivity|]. split; [exact Px|].
      constructor; [|exact Fb]. intros Py. apply R in Py. congruence.
  - intros (b & a & -> & Px & Fb). induction Fb as [|y b N Fb IH]; cbn.
    + apply R in Px. rewrite Px. reflexivity.
    + destruct (p y) eqn:Q; [apply R in Q; contradiction|]. exact IH.
Qed.
Lemma find_none_forall {A} (p : A -> bool) (P : A -> Prop) l : (forall y, p y = true <-> P y) -> find p l = None <-> Forall (fun y => ~ P y) l.
Proof.
  intros R. split.
  - intros F. apply Forall_forall. intros y I Py. apply R in Py. rewrite (find_none _ _ F y I) in Py. discriminate.
  - intros F. induction F as [|y l N F IH]; cbn; auto. destruct (p y) eqn:Q; auto. apply R in Q. contradiction.
Qed.
Lemma first_fun {A} (P : A -> Prop) l x y : first P l x -> first P l y -> x = y.
Proof.
  intros (b & a & -> & Px & Fb) (b' & a' & E & Py & Fb'). revert b' E Fb'. induction Fb as [|z b N Fb IH]; intros [|z' b'] E Fb'; cbn in E; injection E; intros.
  - congruence.
  - subst z'. inversion Fb'; subst. contradiction.
  - subst z. contradiction.
  - inversion Fb'; subst. eapply IH; eauto.
Qed.

Lemma denotes_at t id name b : denotes t id name b <-> sym_at t id = Some (mkSym id name b).
Proof. unfold denotes, sym_at. symmetry. apply find_first. intros y. apply Nat.eqb_eq. Qed.
Lemma sym_at_id t id y : sym_at t id = Some y -> y = mkSym id (sy_name y) (sy_body y).
Proof. intros F. apply find_some in F as (_ & E). apply Nat.eqb_eq in E. destruct y. cbn in *. subst. reflexivity. Qed.

Lemma is_function_a name y : is_function name y = true <-> a_function name y.
Proof.
  unfold is_function, a_function. destruct (sy_body y); rewrite ?text_eqb_eq; split; intros Q; try discriminate; try (destruct Q as (_ & [(? & ? & ? & ? & Q)|(? & ? & ? & ? & ? & Q)]); discriminate);
    try tauto; split; auto; [left|right]; eauto 10.
Qed.
Lemma function_at t name s : function_named t name s <-> reference_function t name = Some s.
Proof. unfold function_named, reference_function. symmetry. apply find_first. intros y. apply is_function_a. Qed.
Lemma no_function_at t name : no_function_named t name <-> reference_function t name = None.
Proof. unfold no_function_named, reference_function. symmetry. apply find_none_forall. intros y. apply is_function_a. Qed.

Lemma field_at fs name g : field_named fs name g <-> exists i, field_index fs name = Some (i, g).
Proof.
  unfold field_named, field_index.
  assert (G : forall n, (exists i f, find_index (fun f => text_eqb (fd_name f) name) fs n = Some (n + i) /\ nth_error fs i = Some f /\ find (fun f => text_eqb (fd_name f) name) fs = Some f) \/
     (find_index (fun f => text_eqb (fd_name f) name) fs n = None /\ find (fun f => text_eqb (fd_name f) name) fs = None)).
  { clear g. induction fs as [|f fs IH]; intros n; cbn; [auto|]. destruct (text_eqb (fd_name f) name) eqn:Q.
    - left. exists 0, f. rewrite Nat.add_0_r. auto.
    - destruct (IH (S n)) as [(i & f' & E & N & F)|(E & F)]; [left; exists (S i), f'; rewrite E; cbn; split; [f_equal; lia|auto]|right; auto]. }
  rewrite <- (find_first (fun f => text_eqb (fd_name f) name)); [|intros y; apply text_eqb_eq].
  destruct (G 0) as [(i & f & E & N & F)|(E & F)]; rewrite E, F.
  - cbn in *. rewrite N. split.
    + intros [= ->]. eauto.
    + intros (j & [= _ <-]). apply find_some in F as (_ & Q). apply text_eqb_eq in Q. destruct f. cbn in *. subst. reflexivity.
  - split; [discriminate|]. intros (i & Q). discriminate.
Qed.

(** ** Types *)
Lemma kind_is t g : is_type t g <-> exists k, kind_of t g = Some k.
Proof.
  split.
  - intros []; cbn; eauto; match goal with D : denotes _ _ _ _ |- _ => apply denotes_at in D; rewrite D; eauto end.
  - intros (k & E). destruct g as [| | | | | |id]; try constructor. cbn in E. destruct (sym_at t id) as [[id' nm b]|] eqn:F; [|discriminate].
    pose proof (sym_at_id _ _ _ F) as Q. injection Q as ->. apply denotes_at in F. destruct b; try discriminate.
    + eapply ty_struct; eauto.
    + eapply ty_foreign; eauto.
    + eapply ty_nullable; eauto.
Qed.
Lemma kind_void t g : kind_of t g = Some KVoid <-> g = GVoid.
Proof. split; [|intros ->; reflexivity]. destruct g; cbn; try discriminate; auto. destruct (sym_at t id) as [[? ? []]|]; discriminate. Qed.
Lemma kind_any t g : kind_of t g = Some KAny <-> g = GAny.
Proof. split; [|intros ->; reflexivity]. destruct g; cbn; try discriminate; auto. destruct (sym_at t id) as [[? ? []]|]; discriminate. Qed.
Lemma kind_int t g : kind_of t g = Some KIntT <-> g = GInt.
Proof. split; [|intros ->; reflexivity]. destruct g; cbn; try discriminate; auto. destruct (sym_at t id) as [[? ? []]|]; discriminate. Qed.
Lemma kind_float t g : kind_of t g = Some KFloatT <-> g = GFloat.
Proof. split; [|intros ->; reflexivity]. destruct g; cbn; try discriminate; auto. destruct (sym_at t id) as [[? ? []]|]; discriminate. Qed.
Lemma kind_bool t g : kind_of t g = Some KBoolT <-> g = GBool.
Proof. split; [|intros ->; reflexivity]. destruct g; cbn; try discriminate; auto. destruct (sym_at t id) as [[? ? []]|]; discriminate. Qed.
Lemma kind_str t g : kind_of t g = Some KStrT <-> g = GStr.
Proof. split; [|intros ->; reflexivity]. destruct g; cbn; try discriminate; auto. destruct (sym_at t id) as [[? ? []]|]; discriminate. Qed.
Lemma kind_struct t g : kind_of t g = Some KStruct <-> exists id nm d fs, g = GSym id /\ denotes t id nm (SyStruct d fs).
Proof.
  split.
  - destruct g; cbn; try discriminate. destruct (sym_at t id) as [[? ? []]|] eqn:F; try discriminate. intros _.
    pose proof (sym_at_id _ _ _ F) as Q. injection Q as ->. apply denotes_at in F. eauto 10.
  - intros (id & nm & d & fs & -> & D). apply denotes_at in D. cbn. rewrite D. reflexivity.
Qed.
Lemma kind_foreign t g : kind_of t g = Some KForeign <-> exists id nm, g = GSym id /\ denotes t id nm SyForeignTag.
Proof.
  split.
  - destruct g; cbn; try discriminate. destruct (sym_at t id) as [[? ? []]|] eqn:F; try discriminate. intros _.
    pose proof (sym_at_id _ _ _ F) as Q. injection Q as ->. apply denotes_at in F. eauto 10.
  - intros (id & nm & -> & D). apply denotes_at in D. cbn. rewrite D. reflexivity.
Qed.
Lemma kind_nullable t g i : kind_of t g = Some (KNullable i) <-> exists id nm, g = GSym id /\ denotes t id nm (SyNullable i).
Proof.
  split.
  - destruct g; cbn; try discriminate. destruct (sym_at t id) as [[? ? []]|] eqn:F; try discriminate. intros [= ->].
    pose proof (sym_at_id _ _ _ F) as Q. injection Q as ->. apply denotes_at in F. eauto 10.
  - intros (id & nm & -> & D). apply denotes_at in D. cbn. rewrite D. reflexivity.
Qed.

Lemma name_at t g nm : type_name t g nm <-> tag_name t g = Some nm.
Proof.
  split.
  - intros []; try reflexivity. apply denotes_at in H. cbn. rewrite H. reflexivity.
  - destruct g; cbn; try (intros [= <-]; constructor). destruct (sym_at t id) as [y|] eqn:F; [|discriminate].
    pose proof (sym_at_id _ _ _ F) as Q. rewrite Q in F. apply denotes_at in F. intros [= <-]. econstructor. exact F.
Qed.

(** ** Assignability *)
Lemma assignable_0 t src dest : assignable 0 t src dest = None.
Proof. reflexivity. Qed.
Lemma assignable_S n t src dest : assignable (S n) t src dest =
      match kind_of t src with
      | None => None
      | Some KVoid => Some false
      | Some ks =>
          match kind_of t dest with
          | None => None
          | Some KAny => Some true
          | Some kd =>
              match ks with
              | KAny => Some false
              | _ =>
                  match kd with
                  | KNullable inner => assignable n t src inner
                  | _ =>
                      if same_kind ks kd then
                        match tag_name t src, tag_name t dest with
                        | Some x, Some y => Some (text_eqb x y)
                        | _, _ => None
                        end
                      else Some false
                  end
              end
          end
      end.
Proof. reflexivity. Qed.
Local Opaque assignable.
Lemma assignable_sound n t : forall src dest, assignable n t src dest = Some true -> assigns t src dest.
Proof.
  induction n as [|n IH]; [intros ? ? Q; rewrite assignable_0 in Q; discriminate|]. intros src dest. rewrite assignable_S.
  destruct (kind_of t src) as [ks|] eqn:Ks; [|discriminate]. intros E.
  assert (NV : ks <> KVoid) by (intros ->; discriminate).
  destruct (kind_of t dest) as [kd|] eqn:Kd; [|destruct ks; discriminate].
  destruct (match kd with KAny => true | _ => false end) eqn:A.
  { destruct kd; try discriminate. apply kind_any in Kd. subst dest. apply as_any; [apply kind_is; eauto|].
    intros ->. injection Ks as <-. contradiction. }
  assert (NA : ks <> KAny) by (intros ->; destruct kd; discriminate).
  destruct (match kd with KNullable _ => true | _ => false end) eqn:Nu.
  { destruct kd as [| | | | | | | |inner]; try discriminate. apply kind_nullable in Kd as (id & nm & -> & D).
    assert (E' : assignable n t src inner = Some true) by (destruct ks; congruence). apply IH in E'.
    eapply as_nullable; eauto. intros ->. injection Ks as <-. contradiction. }
  assert (E' : (if same_kind ks kd then match tag_name t src, tag_name t dest with Some x, Some y => Some (text_eqb x y) | _, _ => None end else Some false) = Some true).
  { destruct ks; try contradiction; destruct kd; congruence. }
  clear E. destruct (same_kind ks kd) eqn:SK; [|discriminate].
  destruct ks, kd; try discriminate; try contradiction;
    repeat match goal with
    | H : kind_of t ?g = Some KBoolT |- _ => apply kind_bool in H; subst
    | H : kind_of t ?g = Some KIntT |- _ => apply kind_int in H; subst
    | H : kind_of t ?g = Some KFloatT |- _ => apply kind_float in H; subst
    | H : kind_of t ?g = Some KStrT |- _ => apply kind_str in H; subst
    end; try constructor.
  - apply kind_struct in Ks as (a & na & d & fs & -> & D). apply kind_struct in Kd as (b & nb & d' & fs' & -> & D').
    pose proof (proj1 (denotes_at _ _ _ _) D) as Fa. pose proof (proj1 (denotes_at _ _ _ _) D') as Fb. cbn in E'. rewrite Fa, Fb in E'. cbn in E'.
    assert (Q : text_eqb na nb = true) by congruence. apply text_eqb_eq in Q. subst nb. eapply as_struct; eauto.
  - apply kind_foreign in Ks as (a & na & -> & D). apply kind_foreign in Kd as (b & nb & -> & D').
    pose proof (proj1 (denotes_at _ _ _ _) D) as Fa. pose proof (proj1 (denotes_at _ _ _ _) D') as Fb. cbn in E'. rewrite Fa, Fb in E'. cbn in E'.
    assert (Q : text_eqb na nb = true) by congruence. apply text_eqb_eq in Q. subst nb. eapply as_foreign; eauto.
Qed.

(** The nullable types that lead from a type to a type that is not nullable *)
Inductive chain (t : tbl) : tag -> list nat -> Prop :=
| ch_end g : (forall i, kind_of t g <> Some (KNullable i)) -> chain t g []
| ch_next id inner l : kind_of t (GSym id) = Some (KNullable inner) -> chain t inner l -> chain t (GSym id) (id :: l).
Lemma chain_fun t g l : chain t g l -> forall l', chain t g l' -> l = l'.
Proof.
  induction 1 as [g N|id inner l K C IH]; intros l' C'; inversion C'; subst; auto.
  - destruct (N _ H).
  - destruct (H _ K).
  - f_equal. apply IH. congruence.
Qed.
Lemma chain_in t g l : chain t g l -> forall id, In id l -> exists l1 l2, l = l1 ++ l2 /\ chain t (GSym id) l2 /\ l2 <> [].
Proof.
  induction 1 as [|id inner l K C IH]; intros i []; subst.
  - exists [], (i :: l). repeat split; [econstructor; eauto|discriminate].
  - destruct (IH _ H) as (l1 & l2 & -> & C2 & N). exists (id :: l1), l2. auto.
Qed.
Lemma chain_nodup t g l : chain t g l -> NoDup l.
Proof.
  induction 1 as [|id inner l K C IH]; constructor; auto. intros I. destruct (chain_in _ _ _ C _ I) as (l1 & l2 & -> & C2 & N).
  assert (C1 : chain t (GSym id) (id :: l1 ++ l2)) by (econstructor; eauto). pose proof (chain_fun _ _ _ C1 _ C2) as Q.
  apply (f_equal (@length nat)) in Q. cbn in Q. rewrite app_length in Q. lia.
Qed.
Lemma chain_incl t g l : chain t g l -> incl l (map sy_id (tb_syms t)).
Proof.
  induction 1 as [|id inner l K C IH]; intros x; [intros []|]. intros [<-|I]; [|auto].
  cbn in K. unfold sym_at in K. destruct (find _ _) as [y|] eqn:F; [|discriminate]. apply find_some in F as (I & Q). apply Nat.eqb_eq in Q. subst id. apply in_map. exact I.
Qed.
Lemma assigns_src t src dest : assigns t src dest -> is_type t src /\ src <> GVoid.
Proof.
  induction 1; auto; try (split; [constructor|discriminate]); try (split; [|discriminate]); [eapply ty_struct|eapply ty_foreign]; eauto.
Qed.
Lemma one_step n t g inner k : kind_of t g = Some k -> k <> KVoid -> k <> KAny -> forall dest, kind_of t dest = Some (KNullable inner) ->
  assignable (S n) t g dest = assignable n t g inner.
Proof. intros K NV NA dest D. rewrite assignable_S, K, D. destruct k; congruence. Qed.
Lemma to_any n t g k : kind_of t g = Some k -> k <> KVoid -> assignable (S n) t g GAny = Some true.
Proof. intros K NV. rewrite assignable_S, K. cbn [kind_of]. destruct k; congruence. Qed.
Lemma by_name n t g g' k k' x : kind_of t g = Some k -> kind_of t g' = Some k' -> same_kind k k' = true -> k <> KVoid ->
  (forall i, k' <> KNullable i) -> tag_name t g = Some x -> tag_name t g' = Some x -> assignable (S n) t g g' = Some true.
Proof.
  intros K K' SK NV NN N N'. rewrite assignable_S. rewrite K, K', N, N'.
  destruct k, k'; try discriminate SK; try (destruct (NV eq_refl)); try (destruct (NN _ eq_refl)); cbv beta iota; try reflexivity; rewrite text_eqb_refl; reflexivity.
Qed.
Lemma assigns_enough t src dest : assigns t src dest -> exists l, chain t dest l /\ forall n, length l < n -> assignable n t src dest = Some true.
Proof.
  assert (V : forall g k, kind_of t g = Some k -> g <> GVoid -> k <> KVoid) by (intros g k K NV ->; apply kind_void in K; contradiction).
  assert (B : forall g g' k k' x, kind_of t g = Some k -> kind_of t g' = Some k' -> same_kind k k' = true -> k <> KVoid ->
     (forall i, k' <> KNullable i) -> tag_name t g = Some x -> tag_name t g' = Some x ->
     exists l, chain t g' l /\ forall n, length l < n -> assignable n t g g' = Some true).
  { intros g g' k k' x K K' SK NV NN N N'. exists []. split; [constructor; intros i Q; rewrite K' in Q; injection Q; apply NN|].
    intros [|n] L; [cbn in L; lia|]. eapply by_name; eauto. }
  induction 1 as [g T NV| | | | |a b nm d fs d' fs' Da Db|a b nm Da Db|g id nm inner D NA As (l & C & F)].
  - exists []. split; [constructor; intros i; cbn; discriminate|]. intros [|n] L; [cbn in L; lia|].
    apply kind_is in T as (k & K). eapply to_any; eauto.
  - eapply (B _ _ KBoolT KBoolT); try reflexivity; discriminate.
  - eapply (B _ _ KIntT KIntT); try reflexivity; discriminate.
  - eapply (B _ _ KFloatT KFloatT); try reflexivity; discriminate.
  - eapply (B _ _ KStrT KStrT); try reflexivity; discriminate.
  - apply denotes_at in Da, Db. eapply (B _ _ KStruct KStruct); try discriminate; try reflexivity; cbn [kind_of tag_name]; rewrite ?Da, ?Db; reflexivity.
  - apply denotes_at in Da, Db. eapply (B _ _ KForeign KForeign); try discriminate; try reflexivity; cbn [kind_of tag_name]; rewrite ?Da, ?Db; reflexivity.
  - assert (Kd : kind_of t (GSym id) = Some (KNullable inner)) by (apply kind_nullable; eauto). exists (id :: l). split; [econstructor; eauto|].
    intros [|n] L; [cbn in L; lia|]. destruct (assigns_src _ _ _ As) as (T & NV). apply kind_is in T as (k & K).
    rewrite (one_step n t g inner k K (V _ _ K NV)); auto; [apply F; cbn in L; lia|intros ->; apply kind_any in K; contradiction].
Qed.
Lemma assigns_iff t src dest : check_assignable src dest t = COk tt t <-> assigns t src dest.
Proof.
  unfold check_assignable. split.
  - destruct (assignable _ t src dest) as [[|]|] eqn:E; try discriminate. intros _. eapply assignable_sound. exact E.
  - intros As. destruct (assigns_enough _ _ _ As) as (l & C & F). rewrite F; [reflexivity|].
    pose proof (NoDup_incl_length (chain_nodup _ _ _ C) (chain_incl _ _ _ C)) as Q. rewrite map_length in Q. lia.
Qed.
Lemma check_same src dest t u t' : check_assignable src dest t = COk u t' -> t' = t /\ assigns t src dest.
Proof.
  intros E. assert (Q : t' = t /\ u = tt).
  { unfold check_assignable in E. destruct (assignable (2 + length (tb_syms t)) t src dest) as [[|]|]; try discriminate E. injection E as <- <-. auto. }
  destruct Q as (-> & ->). split; [reflexivity|]. apply assigns_iff. exact E.
Qed.
