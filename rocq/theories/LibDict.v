(** * Binding the dicts: lemmas for Props_Library.v *)
From Verif Require Import Base Token Lexer LexerSpec Values Heap Strings Code Syntax Symbols Parser Resolve VM Source Compile
  CompileProofs Layout TableInv ParserInv Host HostInv LayTable Whole Preserve TagTable TagParse TagWhole Typing TypingProofs
  Grammar BindSpec BindProofs Props_Compile Props_Parser Props_Bind StdBind SigText LibrarySpec LibraryProofs.
Local Open Scope nat_scope.

Lemma dict_rows : dict_sigs = map sig_of dict_api.
Proof. reflexivity. Qed.
Lemma dict_str_int_rows : dict_str_int_sigs = map sig_of dict_str_int_api.
Proof. reflexivity. Qed.

Lemma registered_names s n x s1 : reachable s -> host n (HType x) s = COk tt s1 -> exists g, names_type (k_tbl s1) x g.
Proof.
  intros R E. destruct (host_type _ _ _ _ E) as (t & Et & ->). pose proof (gd_unique _ _ (ld_good _ _ (reachable_loaded _ R))) as U. cbn [set_tbl k_tbl].
  unfold register_type in Et. destruct (prim_tag x) as [g|] eqn:P.
  - injection Et as <-. exists g. left. clear -P. unfold prim_tag in P.
    repeat match type of P with (if text_eqb ?a ?b then _ else _) = _ => let Q := fresh in destruct (text_eqb a b) eqn:Q;
        [apply text_eqb_eq in Q; injection P as <-; subst x; cbn; tauto|] end. discriminate.
  - apply prim_none in P. assert (F : exists y, find (is_type_named x) (tb_syms t) = Some y).
    { destruct (registered_type s n x R) as (s1' & E' & _). destruct (find (is_type_named x) (tb_syms (k_tbl s))) as [y|] eqn:F.
      - destruct (find_after _ _ _ (steps_after s (set_tbl s t) R (st_host _ _ _ _ _ E (st_refl _))) (fun _ _ => type_became x _ _) _ F) as (y' & F' & _). eauto.
      - injection Et as <-. eexists. cbn. rewrite find_app, F. cbn. rewrite text_eqb_refl. reflexivity. }
    destruct F as (y & F). exists (GSym (sy_id y)). right; [exact P|]. apply (find_first _ _ _ _ (type_is x)). exact F.
Qed.

Lemma register_free s n x s1 : reachable s -> host n (HType x) s = COk tt s1 -> forall nm,
  (none (a_foreign nm) (k_tbl s1) <-> none (a_foreign nm) (k_tbl s)) /\ reference_function (k_tbl s1) nm = reference_function (k_tbl s) nm.
Proof.
  intros R E1 nm. destruct (host_type _ _ _ _ E1) as (t & Et & ->). pose proof (gd_unique _ _ (ld_good _ _ (reachable_loaded _ R))) as U. cbn [set_tbl k_tbl].
  split.
  - rewrite !(none_find _ _ _ (foreign_is nm)), (register_keeps _ _ _ _ Et U); [reflexivity|]. intros [? ? b]. destruct b; cbn; auto; discriminate.
  - unfold reference_function. rewrite (register_keeps _ _ _ _ Et U); [reflexivity|]. intros [? ? b]. destruct b; cbn; auto; discriminate.
Qed.

Lemma adds_other addr t l t' : adds addr t l t' -> forall nm, ~ In nm (map r_name l) ->
  (none (a_foreign nm) t' <-> none (a_foreign nm) t) /\ reference_function t' nm = reference_function t nm.
Proof.
  induction 1 as [t|t r gs g l t' Fa G N Ad IH]; intros nm I; [split; reflexivity|]. cbn [map] in I. destruct (IH nm) as (A & B); [intros Q; apply I; right; exact Q|].
  assert (Ne : r_name r <> nm) by (intros Q; apply I; left; exact Q). split.
  - rewrite A. unfold none, with_foreign. cbn [tb_syms]. rewrite Forall_app. split; [tauto|]. intros F. split; auto. constructor; [|constructor]. intros (Q & _). apply Ne. exact Q.
  - rewrite B. unfold reference_function. cbn [with_foreign tb_syms]. rewrite find_app. destruct (find _ _); [reflexivity|]. cbn.
    destruct (text_eqb (r_name r) nm) eqn:Q; [exfalso; apply Ne, text_eqb_eq; exact Q|reflexivity].
Qed.

(** ** The rows are fine *)
Definition memb (c : ascii) (l : text) : bool := existsb (Ascii.eqb c) l.
Lemma memb_in c l : memb c l = true -> In c l.
Proof. intros H. apply existsb_exists in H as (d & I & Q). apply Ascii.eqb_eq in Q. subst. exact I. Qed.
Definition letters : text := text_of "abcdefghijklmnopqrstuvwxyzABCDEFGHIJKLMNOPQRSTUVWXYZ".
Definition kwords : list text := map (fun kw => text_of (fst kw)) keywords.
Definition name_ok (x : text) : bool :=
  match x with c :: _ => memb c letters | [] => false end &&
  forallb (fun c => memb c letters || memb c (text_of "0123456789_")) x && negb (existsb (text_eqb x) kwords).
Lemma name_ok_is x : name_ok x = true -> is_name x.
Proof.
  unfold name_ok. rewrite !Bool.andb_true_iff. intros ((A & B) & C). split; [|split].
  - destruct x as [|c x]; [discriminate|]. exists c, x. split; [reflexivity|]. apply memb_in. exact A.
  - apply Forall_forall. intros c I. rewrite forallb_forall in B. apply B, Bool.orb_true_iff in I as [I|I]; apply memb_in in I; [left|right]; exact I.
  - intros I. apply Bool.negb_true_iff in C. assert (existsb (text_eqb x) kwords = true) by (apply existsb_exists; exists x; split; [exact I|apply text_eqb_refl]). congruence.
Qed.
Definition row_okb (r : row) : bool := name_ok (r_name r) && forallb name_ok (r_args r) && name_ok (r_ret r).
Lemma rows_ok l : forallb row_okb l = true -> Forall row_ok l.
Proof.
  intros H. apply Forall_forall. intros r I. rewrite forallb_forall in H. apply H in I. unfold row_okb in I. rewrite !Bool.andb_true_iff in I. destruct I as ((A & B) & C).
  split; [apply name_ok_is; auto|]. split; [|apply name_ok_is; auto]. apply Forall_forall. intros x I. apply name_ok_is. rewrite forallb_forall in B. auto.
Qed.
Lemma dict_rows_ok : Forall row_ok dict_api /\ Forall row_ok dict_str_int_api.
Proof. split; apply rows_ok; vm_compute; reflexivity. Qed.

Fixpoint distinct (l : list text) : bool := match l with [] => true | x :: l' => negb (existsb (text_eqb x) l') && distinct l' end.
Lemma distinct_nodup l : distinct l = true -> NoDup l.
Proof.
  induction l as [|x l IH]; [constructor|]. cbn. rewrite Bool.andb_true_iff, Bool.negb_true_iff. intros (A & B). constructor; auto.
  intros I. assert (existsb (text_eqb x) l = true) by (apply existsb_exists; exists x; split; [exact I|apply text_eqb_refl]). congruence.
Qed.
Lemma NoDup_app_remove_r {A} (l l' : list A) : NoDup (l ++ l') -> NoDup l.
Proof.
  induction l as [|x l IH]; [constructor|]. cbn. intros D. inversion D as [|? ? N D']; subst. constructor; auto. intros I. apply N, in_or_app. auto.
Qed.
Lemma NoDup_app_remove_l {A} (l l' : list A) : NoDup (l ++ l') -> NoDup l'.
Proof. induction l as [|x l IH]; [auto|]. cbn. intros D. inversion D; subst. auto. Qed.
Lemma apart {A} (l l' : list A) x : NoDup (l ++ l') -> In x l' -> ~ In x l.
Proof.
  induction l as [|y l IH]; [auto|]. cbn. intros D I [->|Q]; inversion D as [|? ? N D']; subst; [apply N, in_or_app; auto|]. exact (IH D' I Q).
Qed.
Lemma dict_nodup : NoDup (map r_name (dict_api ++ dict_str_int_api)).
Proof. apply distinct_nodup. vm_compute. reflexivity. Qed.

Lemma rows_known t l : (forall r x, In r l -> x = r_ret r \/ In x (r_args r) -> exists g, names_type t x g) -> all_known t l.
Proof.
  intros H. apply Forall_forall. intros r I. split; [|apply (H r); auto]. assert (K : Forall (fun x => exists g, names_type t x g) (r_args r)) by (apply Forall_forall; intros x Ix; apply (H r); auto).
  clear -K. induction K as [|x l (g & G) _ (gs & IH)]; [exists []; constructor|exists (g :: gs); constructor; auto].
Qed.

(** ** What is found of the rows, later *)
Definition found_row (addr : nat -> nat) (s2 : kst) (r : row) : Prop :=
  exists id i gs g, reference_function (k_tbl s2) (r_name r) = Some (mkSym id (r_name r) (SyForeign i gs (r_va r) g (addr (r_place r)))) /\
    Forall2 (names_type (k_tbl s2)) (r_args r) gs /\ names_type (k_tbl s2) (r_ret r) g.

Lemma steps_name s s' x g : reachable s -> steps s s' -> names_type (k_tbl s) x g -> names_type (k_tbl s') x g.
Proof.
  intros R S. apply names_keep. intros y F. destruct (find_after _ _ _ (steps_after _ _ R S) (fun _ _ => type_became x _ _) _ F) as (y' & F' & Bc). exists y'. split; [exact F'|apply Bc].
Qed.
Lemma steps_names_all s s' xs gs : reachable s -> steps s s' -> Forall2 (names_type (k_tbl s)) xs gs -> Forall2 (names_type (k_tbl s')) xs gs.
Proof. intros R S F. induction F; constructor; auto. eapply steps_name; eauto. Qed.

Lemma rows_later addr s1 l t' s2 r : reachable s1 -> adds addr (k_tbl s1) l t' -> Forall row_ok l -> NoDup (map r_name l) -> all_known (k_tbl s1) l ->
  steps (set_tbl s1 t') s2 -> In r l ->
  match reference_function (k_tbl s1) (r_name r) with
  | None => found_row addr s2 r
  | Some f => exists f', reference_function (k_tbl s2) (r_name r) = Some f' /\ sy_id f' = sy_id f
  end.
Proof.
  intros R1 Ad K D Kn S I. assert (S1 : steps s1 (set_tbl s1 t')).
  { destruct (bind_all_complete addr _ _ _ Ad K) as (n1 & B). eapply steps_bind_all. apply (B n1 s1); auto. }
  assert (R' : reachable (set_tbl s1 t')) by (destruct R1 as (z & C & Z); exists z; split; [exact C|eapply steps_app; eauto]).
  assert (S2 : steps s1 s2) by (eapply steps_app; eauto). pose proof (steps_after _ _ R' S) as Af.
  pose proof (adds_function _ _ _ _ Ad D Kn r I) as F. destruct (reference_function (k_tbl s1) (r_name r)) as [f|].
  - destruct (find_after _ _ _ Af (fun _ _ => function_became (r_name r) _ _) _ F) as (f' & F2 & Bc). exists f'. split; [exact F2|apply Bc].
  - destruct F as (gs & gr & id & i & Fa & Gr & F).
    destruct (find_after _ _ _ Af (fun _ _ => function_became (r_name r) _ _) _ F) as (f' & F2 & Bc). apply became_same in Bc; [|reflexivity|exact Logic.I]. subst f'.
    exists id, i, gs, gr. split; [exact F2|]. split; [exact (steps_names_all s1 s2 _ _ R1 S2 Fa)|exact (steps_name s1 s2 _ _ R1 S2 Gr)].
Qed.

(** ** The calls of [Tiny_BindStandardDict], one after the other *)
Record dict_run (addr : nat -> nat) (n : nat) (s s1 s2 s3 : kst) (t4 : tbl) (s5 : kst) (t6 : tbl) : Prop := {
  dr_1 : host n (HType (text_of "array_any")) s = COk tt s1;
  dr_2 : host n (HType (text_of "array_str")) s1 = COk tt s2;
  dr_3 : host n (HType (text_of "dict")) s2 = COk tt s3;
  dr_4 : adds addr (k_tbl s3) dict_api t4;
  dr_5 : host n (HType (text_of "dict_str_int")) (set_tbl s3 t4) = COk tt s5;
  dr_6 : adds addr (k_tbl s5) dict_str_int_api t6 }.

Lemma host_reach n o s s' : reachable s -> host n o s = COk tt s' -> reachable s'.
Proof. intros R E. eapply step_after; eauto. Qed.
Lemma host_steps n o s s' : host n o s = COk tt s' -> steps s s'.
Proof. intros E. eapply st_host; [exact E|apply st_refl]. Qed.
Lemma adds_reach addr s l t : reachable s -> Forall row_ok l -> adds addr (k_tbl s) l t -> reachable (set_tbl s t) /\ steps s (set_tbl s t).
Proof.
  intros R K Ad. assert (S1 : steps s (set_tbl s t)).
  { destruct (bind_all_complete addr _ _ _ Ad K) as (n1 & B). eapply steps_bind_all. apply (B n1 s); auto. }
  split; [|exact S1]. destruct R as (z & C & Z). exists z. split; [exact C|eapply steps_app; eauto].
Qed.

Lemma dict_known addr n s s1 s2 s3 : reachable s -> host n (HType (text_of "array_any")) s = COk tt s1 -> host n (HType (text_of "array_str")) s1 = COk tt s2 ->
  host n (HType (text_of "dict")) s2 = COk tt s3 -> all_known (k_tbl s3) dict_api /\
  forall t4 s5, adds addr (k_tbl s3) dict_api t4 -> host n (HType (text_of "dict_str_int")) (set_tbl s3 t4) = COk tt s5 -> all_known (k_tbl s5) dict_str_int_api.
Proof.
  intros R E1 E2 E3. pose proof (host_reach _ _ _ _ R E1) as R1. pose proof (host_reach _ _ _ _ R1 E2) as R2. pose proof (host_reach _ _ _ _ R2 E3) as R3.
  destruct (registered_names _ _ _ _ R E1) as (g1 & N1). destruct (registered_names _ _ _ _ R1 E2) as (g2 & N2). destruct (registered_names _ _ _ _ R2 E3) as (g3 & N3).
  apply (steps_name _ _ _ _ R1 (host_steps _ _ _ _ E2)), (steps_name _ _ _ _ R2 (host_steps _ _ _ _ E3)) in N1. apply (steps_name _ _ _ _ R2 (host_steps _ _ _ _ E3)) in N2.
  assert (P : forall t x, In x (map fst builtin_types) -> exists g, names_type t x g).
  { intros t x I. apply in_map_iff in I as ((y & g) & <- & I). exists g. left. exact I. }
  split.
  - apply rows_known. intros r x I Ix. cbn in I.
    repeat (destruct I as [<-|I]; [cbn in Ix; repeat (destruct Ix as [Ix|Ix]; [subst x; first [eexists; eassumption|apply P; cbn; tauto]|]); try subst x; try (destruct Ix; fail); first [eexists; eassumption|apply P; cbn; tauto]|]). destruct I.
  - intros t4 s5 Ad E5. destruct (adds_reach addr s3 _ _ R3 (proj1 dict_rows_ok) Ad) as (R4 & S4).
    destruct (registered_names _ _ _ _ R4 E5) as (g5 & N5). apply (steps_name _ _ _ _ R3 S4), (steps_name _ _ _ _ R4 (host_steps _ _ _ _ E5)) in N2.
    apply rows_known. intros r x I Ix. cbn in I.
    repeat (destruct I as [<-|I]; [cbn in Ix; repeat (destruct Ix as [Ix|Ix]; [subst x; first [eexists; eassumption|apply P; cbn; tauto]|]); try subst x; try (destruct Ix; fail); first [eexists; eassumption|apply P; cbn; tauto]|]). destruct I.
Qed.

Lemma cbind_ok {S A B} (m : S -> cres S A) (f : A -> S -> cres S B) s b s' : cbind m f s = COk b s' -> exists a s1, m s = COk a s1 /\ f a s1 = COk b s'.
Proof. unfold cbind. destruct (m s) as [a s1| | | | |]; intros E; [exists a, s1; auto|discriminate E..]. Qed.
Lemma ok_cbind {S A B} (m : S -> cres S A) (f : A -> S -> cres S B) s a s1 r : m s = COk a s1 -> f a s1 = r -> cbind m f s = r.
Proof. unfold cbind. intros -> E. exact E. Qed.
Lemma dict_bound addr n s s' : reachable s -> bind_standard_dict addr n s = COk tt s' ->
  exists s1 s2 s3 t4 s5 t6, dict_run addr n s s1 s2 s3 t4 s5 t6 /\ s' = set_tbl s5 t6.
Proof.
  intros R M. unfold bind_standard_dict in M. rewrite dict_rows, dict_str_int_rows in M.
  apply cbind_ok in M as ([] & s1 & E1 & M). apply cbind_ok in M as ([] & s2 & E2 & M). apply cbind_ok in M as ([] & s3 & E3 & M).
  apply cbind_ok in M as ([] & s4 & E4 & M). apply cbind_ok in M as ([] & s5 & E5 & M).
  destruct (dict_known addr n _ _ _ _ R E1 E2 E3) as (K & K5).
  destruct (bind_all_sound addr n _ _ _ (proj1 dict_rows_ok) K E4) as (t4 & A4 & ->).
  destruct (bind_all_sound addr n _ _ _ (proj2 dict_rows_ok) (K5 _ _ A4 E5) M) as (t6 & A6 & ->).
  exists s1, s2, s3, t4, s5, t6. split; [constructor; auto|reflexivity].
Qed.

Lemma dict_made_run addr s : reachable s -> Forall (fun r => none (a_foreign (r_name r)) (k_tbl s)) (dict_api ++ dict_str_int_api) ->
  exists n s', bind_standard_dict addr n s = COk tt s'.
Proof.
  intros R F. apply Forall_app in F as (F3 & F5). pose proof dict_nodup as D. rewrite map_app in D.
  destruct (registered_type s 0 (text_of "array_any") R) as (s1 & E1 & _). pose proof (host_reach _ _ _ _ R E1) as R1.
  destruct (registered_type s1 0 (text_of "array_str") R1) as (s2 & E2 & _). pose proof (host_reach _ _ _ _ R1 E2) as R2.
  destruct (registered_type s2 0 (text_of "dict") R2) as (s3 & E3 & _). pose proof (host_reach _ _ _ _ R2 E3) as R3.
  assert (Fr3 : forall nm, none (a_foreign nm) (k_tbl s3) <-> none (a_foreign nm) (k_tbl s)).
  { intros nm. rewrite (proj1 (register_free _ _ _ _ R2 E3 nm)), (proj1 (register_free _ _ _ _ R1 E2 nm)). apply (register_free _ _ _ _ R E1). }
  destruct (dict_known addr 0 _ _ _ _ R E1 E2 E3) as (K & K5).
  destruct (proj2 (adds_free addr dict_api (k_tbl s3) K (NoDup_app_remove_r _ _ D))) as (t4 & A4).
  { eapply Forall_impl; [|exact F3]. intros r Fr. apply Fr3. exact Fr. }
  destruct (adds_reach addr s3 _ _ R3 (proj1 dict_rows_ok) A4) as (R4 & _).
  destruct (registered_type _ 0 (text_of "dict_str_int") R4) as (s5 & E5 & _).
  destruct (proj2 (adds_free addr dict_str_int_api (k_tbl s5) (K5 _ _ A4 E5) (NoDup_app_remove_l _ _ D))) as (t6 & A6).
  { apply Forall_forall. intros r I. rewrite Forall_forall in F5. rewrite (proj1 (register_free _ _ _ _ R4 E5 (r_name r))). cbn [set_tbl k_tbl].
    apply (proj1 (adds_other _ _ _ _ A4 (r_name r) (apart _ _ _ D (in_map r_name _ _ I)))). apply Fr3. auto. }
  destruct (bind_all_complete addr _ _ _ A4 (proj1 dict_rows_ok)) as (n4 & B4). destruct (bind_all_complete addr _ _ _ A6 (proj2 dict_rows_ok)) as (n6 & B6).
  exists (max n4 n6), (set_tbl s5 t6). unfold bind_standard_dict. rewrite dict_rows, dict_str_int_rows.
  pose proof (B4 (max n4 n6) s3 ltac:(lia) eq_refl) as C4. pose proof (B6 (max n4 n6) s5 ltac:(lia) eq_refl) as C6. clear B4 B6.
  eapply ok_cbind; [exact E1|]. eapply ok_cbind; [exact E2|]. eapply ok_cbind; [exact E3|]. eapply ok_cbind; [exact C4|]. eapply ok_cbind; [exact E5|exact C6].
Qed.

Lemma dict_run_free addr n s s1 s2 s3 t4 s5 t6 : reachable s -> dict_run addr n s s1 s2 s3 t4 s5 t6 ->
  Forall (fun r => none (a_foreign (r_name r)) (k_tbl s)) (dict_api ++ dict_str_int_api).
Proof.
  intros R [E1 E2 E3 A4 E5 A6]. pose proof dict_nodup as D. rewrite map_app in D.
  pose proof (host_reach _ _ _ _ R E1) as R1. pose proof (host_reach _ _ _ _ R1 E2) as R2. pose proof (host_reach _ _ _ _ R2 E3) as R3.
  assert (Fr3 : forall nm, none (a_foreign nm) (k_tbl s3) <-> none (a_foreign nm) (k_tbl s)).
  { intros nm. rewrite (proj1 (register_free _ _ _ _ R2 E3 nm)), (proj1 (register_free _ _ _ _ R1 E2 nm)). apply (register_free _ _ _ _ R E1). }
  destruct (dict_known addr n _ _ _ _ R E1 E2 E3) as (K & K5). destruct (adds_reach addr s3 _ _ R3 (proj1 dict_rows_ok) A4) as (R4 & _).
  apply Forall_app. split.
  - pose proof (proj1 (adds_free addr dict_api (k_tbl s3) K (NoDup_app_remove_r _ _ D)) (ex_intro _ _ A4)) as F. eapply Forall_impl; [|exact F]. intros r Fr. apply Fr3. exact Fr.
  - pose proof (proj1 (adds_free addr dict_str_int_api (k_tbl s5) (K5 _ _ A4 E5) (NoDup_app_remove_l _ _ D)) (ex_intro _ _ A6)) as F.
    apply Forall_forall. intros r I. rewrite Forall_forall in F. specialize (F r I). cbn in F. rewrite (proj1 (register_free _ _ _ _ R4 E5 (r_name r))) in F. cbn [set_tbl k_tbl] in F.
    apply (proj1 (adds_other _ _ _ _ A4 (r_name r) (apart _ _ _ D (in_map r_name _ _ I)))) in F. apply Fr3. exact F.
Qed.

Lemma dict_rows_later addr n s s1 s2 s3 t4 s5 t6 z r : reachable s -> dict_run addr n s s1 s2 s3 t4 s5 t6 -> steps (set_tbl s5 t6) z ->
  In r (dict_api ++ dict_str_int_api) ->
  match reference_function (k_tbl s) (r_name r) with
  | None => found_row addr z r
  | Some f => exists f', reference_function (k_tbl z) (r_name r) = Some f' /\ sy_id f' = sy_id f
  end.
Proof.
  intros R [E1 E2 E3 A4 E5 A6] S I. pose proof dict_nodup as D. rewrite map_app in D.
  pose proof (host_reach _ _ _ _ R E1) as R1. pose proof (host_reach _ _ _ _ R1 E2) as R2. pose proof (host_reach _ _ _ _ R2 E3) as R3.
  assert (Fr3 : forall nm, reference_function (k_tbl s3) nm = reference_function (k_tbl s) nm).
  { intros nm. rewrite (proj2 (register_free _ _ _ _ R2 E3 nm)), (proj2 (register_free _ _ _ _ R1 E2 nm)). apply (register_free _ _ _ _ R E1). }
  destruct (dict_known addr n _ _ _ _ R E1 E2 E3) as (K & K5). destruct (adds_reach addr s3 _ _ R3 (proj1 dict_rows_ok) A4) as (R4 & _).
  pose proof (host_reach _ _ _ _ R4 E5) as R5. destruct (adds_reach addr s5 _ _ R5 (proj2 dict_rows_ok) A6) as (R6 & S6).
  assert (S4 : steps (set_tbl s3 t4) z) by (eapply steps_app; [exact (host_steps _ _ _ _ E5)|eapply steps_app; eauto]).
  apply in_app_or in I as [I|I].
  - pose proof (rows_later addr s3 _ _ _ r R3 A4 (proj1 dict_rows_ok) (NoDup_app_remove_r _ _ D) K S4 I) as X. rewrite Fr3 in X. exact X.
  - pose proof (rows_later addr s5 _ _ _ r R5 A6 (proj2 dict_rows_ok) (NoDup_app_remove_l _ _ D) (K5 _ _ A4 E5) S I) as X.
    rewrite (proj2 (register_free _ _ _ _ R4 E5 _)) in X. cbn [set_tbl k_tbl] in X. rewrite (proj2 (adds_other _ _ _ _ A4 (r_name r) (apart _ _ _ D (in_map r_name _ _ I)))), Fr3 in X. exact X.
Qed.

(** ** The types *)
Lemma names_spelt_type t x g : is_name x -> names_type t x g -> forall tok, tk tok = IDENT -> tk_lexeme tok = Some x -> spells_type t [tok] g t.
Proof. intros _ N tok K L. eapply st_name; eauto. apply names_spelt. exact N. Qed.

Definition undefined (t : tbl) (x : text) : Prop := forall y fs, first (a_type x) (tb_syms t) y -> sy_body y <> SyStruct true fs.
Lemma undefined_host s n x s1 z : reachable s -> host n (HType z) s = COk tt s1 -> x <> z -> undefined (k_tbl s) x -> undefined (k_tbl s1) x.
Proof.
  intros R E1 Ne U y fs F. destruct (host_type _ _ _ _ E1) as (t & Et & ->). pose proof (gd_unique _ _ (ld_good _ _ (reachable_loaded _ R))) as Un. cbn [set_tbl k_tbl] in F.
  apply (U y fs). apply (find_first _ _ _ _ (type_is x)). apply (find_first _ _ _ _ (type_is x)) in F. rewrite <- F. symmetry. eapply register_keeps; eauto.
  intros w Q. destruct (is_type_named x w) eqn:Q2; auto. exfalso. apply Ne. destruct w as [? ? b]; destruct b; cbn in *; try discriminate; apply text_eqb_eq in Q, Q2; congruence.
Qed.
Lemma undefined_adds addr t l t' x : adds addr t l t' -> undefined t x -> undefined t' x.
Proof.
  induction 1 as [t|t r gs g l t' Fa G N Ad IH]; intros U; auto. apply IH. intros y fs F. apply (U y fs). apply (find_first _ _ _ _ (type_is x)) in F. apply (find_first _ _ _ _ (type_is x)).
  cbn in F. rewrite find_app in F. destruct (find _ _); [exact F|]. discriminate.
Qed.

Definition own_type (s : kst) (x : text) : Prop :=
  exists a, names_type (k_tbl s) x (GSym a) /\ is_type (k_tbl s) (GSym a) /\
    forall g, assigns (k_tbl s) g (GSym a) <-> exists a', g = GSym a' /\ denotes (k_tbl s) a' x SyForeignTag.
Lemma registered_own s n x s1 s2 : reachable s -> host n (HType x) s = COk tt s1 -> ~ builtin x -> undefined (k_tbl s) x -> steps s1 s2 -> own_type s2 x.
Proof.
  intros R E1 B U S. destruct (registered_type s n x R) as (s1' & E1' & H). assert (s1' = s1) as -> by congruence.
  destruct (H B U) as (a & Ha). destruct (Ha s2 S) as (Sp & Ty & As). exists a. split; [|auto].
  destruct (registered_names _ _ _ _ R E1) as (g & N). apply (steps_name _ _ _ _ (host_reach _ _ _ _ R E1) S) in N.
  pose proof (Sp (mkTok IDENT 0 0 (Some x) false 0 0) eq_refl eq_refl) as X. inversion X as [? ? ? ? ? ? L Tg|]; subst. cbn in L. injection L as <-.
  pose proof (names_spelt _ _ _ N) as Tg'. unfold spelt_as in Tg'. assert (g = GSym a) as -> by congruence. exact N.
Qed.
Lemma dict_types_later addr n s s1 s2 s3 t4 s5 t6 z : reachable s -> dict_run addr n s s1 s2 s3 t4 s5 t6 -> steps (set_tbl s5 t6) z ->
  forall x, In x (map text_of ["array_any"; "array_str"; "dict"; "dict_str_int"]%string) -> undefined (k_tbl s) x -> own_type z x.
Proof.
  intros R [E1 E2 E3 A4 E5 A6] S x I U.
  pose proof (host_reach _ _ _ _ R E1) as R1. pose proof (host_reach _ _ _ _ R1 E2) as R2. pose proof (host_reach _ _ _ _ R2 E3) as R3.
  destruct (adds_reach addr s3 _ _ R3 (proj1 dict_rows_ok) A4) as (R4 & S4).
  pose proof (host_reach _ _ _ _ R4 E5) as R5. destruct (adds_reach addr s5 _ _ R5 (proj2 dict_rows_ok) A6) as (R6 & S6).
  assert (Z5 : steps s5 z) by (eapply steps_app; eauto). assert (Z3 : steps s3 z) by (eapply steps_app; [exact S4|eapply steps_app; [exact (host_steps _ _ _ _ E5)|exact Z5]]).
  assert (Z2 : steps s2 z) by (eapply steps_app; [exact (host_steps _ _ _ _ E3)|exact Z3]). assert (Z1 : steps s1 z) by (eapply steps_app; [exact (host_steps _ _ _ _ E2)|exact Z2]).
  cbn [map In] in I. destruct I as [<-|[<-|[<-|[<-|[]]]]].
  - apply (registered_own _ _ _ _ _ R E1); auto. apply prim_none. reflexivity.
  - apply (registered_own _ _ _ _ _ R1 E2); auto; [apply prim_none; reflexivity|]. eapply undefined_host; [exact R|exact E1|discriminate|exact U].
  - apply (registered_own _ _ _ _ _ R2 E3); auto; [apply prim_none; reflexivity|]. eapply undefined_host; [exact R1|exact E2|discriminate|]. eapply undefined_host; [exact R|exact E1|discriminate|exact U].
  - apply (registered_own _ _ _ _ _ R4 E5); auto; [apply prim_none; reflexivity|]. cbn [set_tbl k_tbl]. eapply undefined_adds; [exact A4|].
    eapply undefined_host; [exact R2|exact E3|discriminate|]. eapply undefined_host; [exact R1|exact E2|discriminate|]. eapply undefined_host; [exact R|exact E1|discriminate|exact U].
Qed.
