(** * Binding the library: lemmas for Props_Library.v *)
From Verif Require Import Base Token Lexer LexerSpec Values Heap Strings Code Syntax Symbols Parser Resolve VM Source Compile
  CompileProofs Layout TableInv ParserInv Host HostInv LayTable Whole Preserve TagTable TagParse TagWhole Typing TypingProofs
  Grammar BindSpec BindProofs Props_Bind StdBind SigText LibrarySpec.
Local Open Scope nat_scope.

Definition row_ok (r : row) : Prop := is_name (r_name r) /\ Forall is_name (r_args r) /\ is_name (r_ret r).
Definition sig_of (r : row) : text * nat := (written (r_name r) (r_args r) (r_va r) (r_ret r), r_place r).

Lemma names_spelt t x g : names_type t x g -> spelt_as t x g.
Proof.
  unfold spelt_as. intros [? I|y N F].
  - cbn in I. repeat (destruct I as [I|I]; [injection I as <- <-; reflexivity|]). destruct I.
  - unfold tag_from_name. destruct (prim_tag x) eqn:P.
    + pose proof (proj2 (prim_none x) N) as Q. congruence.
    + apply (find_first _ _ _ _ (type_is x)) in F. rewrite F. reflexivity.
Qed.

Lemma names_keep t t' x g : (forall y, find (is_type_named x) (tb_syms t) = Some y -> exists y', find (is_type_named x) (tb_syms t') = Some y' /\ sy_id y' = sy_id y) ->
  names_type t x g -> names_type t' x g.
Proof.
  intros K [? I|y N F]; [left; auto|]. apply (find_first _ _ _ _ (type_is x)) in F. destruct (K _ F) as (y' & F' & <-).
  right; auto. apply (find_first _ _ _ _ (type_is x)). exact F'.
Qed.
Lemma names_with t x g nm args va ret c : names_type t x g -> names_type (with_foreign t nm args va ret c) x g.
Proof. apply names_keep. intros y F. exists y. split; auto. cbn. rewrite find_app, F. reflexivity. Qed.
Lemma names_one t x g g' : names_type t x g -> names_type t x g' -> g' = g.
Proof. intros A B. apply names_spelt in A. apply names_spelt in B. unfold spelt_as in *. congruence. Qed.

(** ** Binding one row, and all *)
Lemma row_binds T r gs g c : row_ok r -> Forall2 (names_type T) (r_args r) gs -> names_type T (r_ret r) g ->
  exists n0, forall n, n0 <= n -> bind_host n (fst (sig_of r)) c T = bind_function (r_name r) gs (r_va r) g c T.
Proof.
  intros (N & A & R) F G. destruct (written_signature T (r_name r) (r_args r) (r_va r) (r_ret r) gs g N A R) as (a & y & B & S).
  - clear A. induction F; constructor; auto. apply names_spelt. auto.
  - apply names_spelt. auto.
  - apply (host_complete _ c _ _ _ _ _ _ _ _ B S).
Qed.
Lemma bind_row_spec T r gs g c n T' : row_ok r -> Forall2 (names_type T) (r_args r) gs -> names_type T (r_ret r) g ->
  bind_host n (fst (sig_of r)) c T = COk tt T' -> none (a_foreign (r_name r)) T /\ T' = with_foreign T (r_name r) gs (r_va r) g c.
Proof.
  intros K F G E. destruct (row_binds T r gs g c K F G) as (n0 & H). pose proof (host_grow n (max n n0) _ _ _ _ E ltac:(lia)) as E'.
  rewrite H in E' by lia. unfold bind_function in E'. destruct (find (is_foreign_named (r_name r)) (tb_syms T)) eqn:Q; [discriminate|]. cbn in E'. injection E' as <-.
  split; [apply (none_find _ _ _ (foreign_is _)); auto|reflexivity].
Qed.

Lemma set_tbl_twice s t t' : set_tbl (set_tbl s t) t' = set_tbl s t'.
Proof. reflexivity. Qed.
Lemma set_tbl_same s : set_tbl s (k_tbl s) = s.
Proof. destruct s. reflexivity. Qed.

Definition all_known (t : tbl) (l : list row) : Prop :=
  Forall (fun r => (exists gs, Forall2 (names_type t) (r_args r) gs) /\ exists g, names_type t (r_ret r) g) l.
Lemma known_with t l nm args va ret c : all_known t l -> all_known (with_foreign t nm args va ret c) l.
Proof.
  intros K. eapply Forall_impl; [|exact K]. intros r ((gs & F) & g & G). split; [|eexists; apply names_with; exact G].
  exists gs. clear -F. induction F; constructor; auto. apply names_with. auto.
Qed.

Lemma bind_all_sound addr n : forall l s s', Forall row_ok l -> all_known (k_tbl s) l -> bind_all addr n (map sig_of l) s = COk tt s' ->
  exists t', adds addr (k_tbl s) l t' /\ s' = set_tbl s t'.
Proof.
  induction l as [|r l IH]; intros s s' K A E; cbn [map bind_all] in E.
  - injection E as <-. exists (k_tbl s). split; [constructor|symmetry; apply set_tbl_same].
  - inversion K as [|? ? Kr K']; subst. inversion A as [|? ? ((gs & Fa) & g & G) A']; subst. destruct (sig_of r) as [sg pl] eqn:Es. unfold cbind in E.
    destruct (host n (HFun sg (addr pl)) s) as [[] s1| | | | |] eqn:H; try discriminate. unfold host, kon_tbl in H.
    destruct (bind_host n sg (addr pl) (k_tbl s)) as [[] t1| | | | |] eqn:B; try discriminate. injection H as <-.
    assert (sg = fst (sig_of r)) as -> by (rewrite Es; reflexivity). assert (pl = r_place r) as -> by (injection Es; auto).
    destruct (bind_row_spec _ _ _ _ _ _ _ Kr Fa G B) as (N & ->).
    assert (A2 : all_known (k_tbl (set_tbl s (with_foreign (k_tbl s) (r_name r) gs (r_va r) g (addr (r_place r))))) l) by (apply known_with; exact A').
    destruct (IH _ _ K' A2 E) as (t' & Ad & ->). exists t'. split; [|reflexivity]. econstructor; eauto.
Qed.
Lemma bind_all_complete addr t l t' : adds addr t l t' -> Forall row_ok l -> exists n0, forall n s, n0 <= n -> k_tbl s = t -> bind_all addr n (map sig_of l) s = COk tt (set_tbl s t').
Proof.
  induction 1 as [t|t r gs g l t' Fa G N Ad IH]; intros K.
  - exists 0. intros n s _ <-. cbn. rewrite set_tbl_same. reflexivity.
  - inversion K as [|? ? Kr K']; subst. destruct (IH K') as (n1 & H1). destruct (row_binds t r gs g (addr (r_place r)) Kr Fa G) as (n0 & H0).
    exists (max n0 n1). intros n s L E. cbn [map bind_all]. unfold sig_of at 1. unfold cbind, host, kon_tbl. rewrite E. cbn [fst sig_of] in H0. rewrite H0 by lia.
    unfold bind_function. apply (none_find _ _ _ (foreign_is _)) in N. rewrite N. cbn [new_sym set_nforeign].
    rewrite (H1 n (set_tbl s _)) by (try lia; reflexivity). reflexivity.
Qed.

(** Rows can be added when their names are free and different. *)
Lemma all_one t : forall xs gs gs', Forall2 (names_type t) xs gs -> Forall2 (names_type t) xs gs' -> gs' = gs.
Proof. intros xs gs gs' F. revert gs'. induction F as [|x y l m R F IH]; intros gs' F'; inversion F'; subst; auto. f_equal; [eapply names_one; eauto|auto]. Qed.
Lemma adds_free addr : forall l t, all_known t l -> NoDup (map r_name l) ->
  ((exists t', adds addr t l t') <-> Forall (fun r => none (a_foreign (r_name r)) t) l).
Proof.
  induction l as [|r l IH]; intros t A D; [split; [constructor|exists t; constructor]|].
  inversion A as [|? ? ((gs & Fa) & g & G) A']; subst. inversion D as [|? ? Nr D']; subst.
  specialize (IH (with_foreign t (r_name r) gs (r_va r) g (addr (r_place r))) (known_with _ _ _ _ _ _ _ A') D').
  assert (Eq : forall r', In r' l -> (none (a_foreign (r_name r')) (with_foreign t (r_name r) gs (r_va r) g (addr (r_place r))) <-> none (a_foreign (r_name r')) t)).
  { intros r' I. unfold none, with_foreign. cbn [tb_syms]. rewrite Forall_app. split; [tauto|]. intros F. split; auto. constructor; [|constructor].
    intros (Q & _). cbn in Q. apply Nr. rewrite Q. apply in_map. exact I. }
  split.
  - intros (t' & Ad). inversion Ad as [|? ? gs' g' ? ? Fa' G' N Ad']; subst.
    assert (gs' = gs) as -> by (eapply all_one; eauto).
    assert (g' = g) as -> by (eapply names_one; eauto).
    constructor; auto. apply Forall_forall. intros r' I. apply (Eq r' I). revert r' I. apply Forall_forall. apply IH. eauto.
  - intros F. inversion F as [|? ? Fr F']; subst. destruct (proj2 IH) as (t' & Ad).
    + apply Forall_forall. intros r' I. apply (Eq r' I). eapply Forall_forall in F'; eauto.
    + exists t'. econstructor; eauto.
Qed.

(** ** What a row is afterwards *)
Lemma steps_bind_all addr n : forall l s s', bind_all addr n l s = COk tt s' -> steps s s'.
Proof.
  induction l as [|[sg pl] l IH]; intros s s' E; cbn [bind_all] in E; [injection E as <-; apply st_refl|].
  unfold cbind in E. destruct (host n (HFun sg (addr pl)) s) as [[] s1| | | | |] eqn:H; try discriminate. eapply st_host; [exact H|]. auto.
Qed.
Lemma adds_syms addr t l t' : adds addr t l t' -> exists m, tb_syms t' = tb_syms t ++ m.
Proof. induction 1 as [t|t r gs g l t' _ _ _ _ (m & IH)]; [exists []; symmetry; apply app_nil_r|]. cbn in IH. rewrite <- app_assoc in IH. eauto. Qed.
(** The oldest function of a name *)
Lemma adds_function addr t l t' : adds addr t l t' -> NoDup (map r_name l) -> all_known t l -> forall r, In r l ->
  match reference_function t (r_name r) with
  | Some f => reference_function t' (r_name r) = Some f
  | None => exists gs g id i, Forall2 (names_type t) (r_args r) gs /\ names_type t (r_ret r) g /\
      reference_function t' (r_name r) = Some (mkSym id (r_name r) (SyForeign i gs (r_va r) g (addr (r_place r))))
  end.
Proof.
  unfold reference_function. intros Ad. induction Ad as [t|t r0 gs g l t' Fa G N Ad IH]; intros D K r I; [destruct I|].
  inversion D as [|? ? Nr D']; subst. inversion K as [|? ? _ K']; subst. destruct (adds_syms _ _ _ _ Ad) as (m & Em). cbn [with_foreign tb_syms] in Em.
  destruct (find (is_function (r_name r)) (tb_syms t)) as [f|] eqn:Q.
  { rewrite Em, !find_app, Q. reflexivity. }
  destruct I as [<-|I].
  - exists gs, g, (tb_next t), (tb_nforeign t). split; auto. split; auto. rewrite Em, !find_app, Q. cbn. rewrite text_eqb_refl. reflexivity.
  - specialize (IH D' (known_with _ _ _ _ _ _ _ K') r I). cbn [with_foreign tb_syms] in IH. rewrite find_app, Q in IH. cbn [find is_function sy_body sy_name] in IH.
    destruct (text_eqb (r_name r0) (r_name r)) eqn:Qn.
    { exfalso. apply Nr. apply text_eqb_eq in Qn. rewrite Qn. apply in_map. exact I. }
    destruct IH as (gs' & g' & id & i & F' & G' & E). 
    pose proof (proj1 (Forall_forall _ _) K' r I) as ((gs0 & F0) & g0 & G0). exists gs0, g0, id, i. split; auto. split; auto.
    rewrite E. rewrite (all_one _ _ gs' gs0 F'), (names_one _ _ g' g0 G'); auto; [apply names_with; auto|].
    clear -F0. induction F0; constructor; auto. apply names_with. auto.
Qed.

(** ** The array macro *)
Definition sig_size (A E : text) : Prop := 2 * length A + length E <= 484.

Lemma sigbuf_fits parts : length (concat parts) <= 511 -> sigbuf parts = concat parts.
Proof. intros L. unfold sigbuf. apply firstn_all2. exact L. Qed.
Lemma array_rows A E p i : sig_size A E -> array_sigs A E p i = map sig_of (array_api A E p i).
Proof.
  intros Z. unfold array_sigs, array_api. rewrite map_app. f_equal.
  - unfold sig_size in Z. cbn [map]. unfold sig_of, written. cbn [r_name r_args r_va r_ret r_place].
    repeat (f_equal; [|]); try reflexivity; try (destruct p; reflexivity);
    (rewrite sigbuf_fits by (cbn [concat]; rewrite ?app_length; cbn [length text_of]; lia); cbn [concat commas text_of app]; rewrite <- ?app_assoc; cbn [app]; rewrite ?app_nil_r; reflexivity).
  - destruct i; [|reflexivity]. unfold sig_size in Z. cbn [map]. unfold sig_of, written. cbn [r_name r_args r_va r_ret r_place].
    rewrite sigbuf_fits by (cbn [concat]; rewrite ?app_length; cbn [length text_of]; lia). cbn [concat commas text_of app]. rewrite <- ?app_assoc. cbn [app]. rewrite ?app_nil_r. reflexivity.
Qed.
Lemma name_extended A x : is_name A -> Forall name_char x -> In "_"%char x -> is_name (A ++ x).
Proof.
  intros ((c & s & -> & L) & F & _) Fx U. split; [exists c, (s ++ x); auto|]. split; [apply Forall_app; auto|].
  intros I. assert (H : In "_"%char ((c :: s) ++ x)) by (apply in_or_app; auto). revert H I. generalize ((c :: s) ++ x). intros w H I. revert H. cbn in I.
  repeat (destruct I as [<-|I]; [vm_compute; intuition discriminate|]). destruct I.
Qed.
Ltac chars := unfold name_char, letter; cbn; tauto.
Lemma builtin_name x : In x (map fst builtin_types) -> is_name x.
Proof.
  intros I. cbn in I. repeat (destruct I as [<-|I]; [split; [eexists _, _; split; [reflexivity|chars]|]; split; [repeat (apply Forall_cons; [chars|]); apply Forall_nil|vm_compute; intuition discriminate]|]). destruct I.
Qed.
Lemma array_rows_ok A E p i : is_name A -> is_name E -> Forall row_ok (array_api A E p i).
Proof.
  intros NA NE. pose proof (fun x I => builtin_name (text_of x) I) as B.
  assert (Bi : is_name (text_of "int")) by (apply builtin_name; cbn; tauto).
  assert (Bv : is_name (text_of "void")) by (apply builtin_name; cbn; tauto).
  unfold array_api. apply Forall_app. split.
  - repeat (apply Forall_cons; [split; [first [exact NA|apply name_extended; [exact NA|repeat (apply Forall_cons; [chars|]); apply Forall_nil|cbn; tauto]]|split; [|cbn; auto]; cbn [r_args]; auto]|]). apply Forall_nil.
  - destruct i; [|constructor]. constructor; [|constructor]. split; [apply name_extended; [exact NA|repeat (apply Forall_cons; [chars|]); apply Forall_nil|cbn; tauto]|split; cbn; auto].
Qed.
Lemma array_rows_nodup A E p i : NoDup (map r_name (array_api A E p i)).
Proof.
  assert (Q : map r_name (array_api A E p i) = map (app A) ([[]; text_of "_clear"; text_of "_resize"; text_of "_resize_fill"; text_of "_get"; text_of "_get_index";
     text_of "_set"; text_of "_set_index"; text_of "_len"; text_of "_push"; text_of "_pop"; text_of "_shift"; text_of "_remove"; text_of "_insert"] ++ if i then [text_of "_sort"] else [])).
  { unfold array_api. destruct i; cbn [map app r_name]; rewrite app_nil_r; reflexivity. }
  rewrite Q. apply FinFun.Injective_map_NoDup; [intros a b; apply app_inv_head|].
  destruct i; cbn [app]; repeat (constructor; [vm_compute; intuition discriminate|]); constructor.
Qed.
Lemma array_rows_known t A E p i a g : names_type t A a -> names_type t E g -> all_known t (array_api A E p i).
Proof.
  intros HA HE. assert (Hi : names_type t (text_of "int") GInt) by (left; cbn; tauto). assert (Hv : names_type t (text_of "void") GVoid) by (left; cbn; tauto).
  unfold all_known, array_api. apply Forall_app. split.
  - repeat (apply Forall_cons; [split; [eexists; cbn [r_args]; repeat (apply Forall2_cons; [eassumption|]); apply Forall2_nil|eexists; cbn; eassumption]|]). apply Forall_nil.
  - destruct i; [|constructor]. constructor; [|constructor]. split; [eexists; cbn [r_args]; repeat (apply Forall2_cons; [eassumption|]); apply Forall2_nil|eexists; cbn; eassumption].
Qed.

(** ** Finding types *)
Lemma find_type_is t x g : find_type_symbol t x = Some g <-> usable t x g.
Proof.
  unfold find_type_symbol, usable. split.
  - destruct (prim_tag x) as [g0|] eqn:P.
    + intros [= <-]. unfold prim_tag in P.
      repeat match type of P with (if text_eqb ?a ?b then _ else _) = _ => let Q := fresh in destruct (text_eqb a b) eqn:Q;
        [apply text_eqb_eq in Q; injection P as <-; subst x; split; [left; cbn; tauto|intros ? ? [=]]|] end. discriminate.
    + apply prim_none in P. destruct (find (is_type_named x) (tb_syms t)) as [y|] eqn:F; [|discriminate]. apply (find_first _ _ _ _ (type_is x)) in F.
      intros H. assert (Hg : g = GSym (sy_id y) /\ forall fs, sy_body y <> SyStruct false fs) by (destruct y as [? ? b]; destruct b as [| | | |[]| | |]; cbn in *; try discriminate; injection H as <-; split; congruence).
      destruct Hg as (-> & Hd). split; [right; auto|]. intros y' fs _ F'. apply (find_first _ _ _ _ (type_is x)) in F, F'. rewrite F in F'. injection F' as <-. auto.
  - intros (N & D). pose proof (names_spelt _ _ _ N) as Sp. unfold spelt_as, tag_from_name in Sp. destruct (prim_tag x) as [g0|] eqn:P; [congruence|].
    destruct N as [? I|y N F]. { exfalso. cbn in I. repeat (destruct I as [I|I]; [injection I as <- <-; discriminate P|]). destruct I. }
    pose proof (proj2 (find_first _ _ _ _ (type_is x)) F) as F'. rewrite F'. specialize (D y). destruct y as [? ? b]; destruct b as [| | | |[]| | |]; cbn; auto. exfalso. eapply D; eauto. reflexivity.
Qed.

Lemma register_keeps name t t' (p : sym -> bool) : register_type name t = COk tt t' -> CompileProofs.unique t ->
  (forall y, is_type_named name y = true -> p y = false) -> find p (tb_syms t') = find p (tb_syms t).
Proof.
  intros E U Hp. unfold register_type in E. destruct (prim_tag name); [injection E as <-; reflexivity|].
  assert (Hi : forall i, p (mkSym i name SyForeignTag) = false) by (intros i; apply Hp; cbn; apply text_eqb_refl).
  destruct (find (is_type_named name) (tb_syms t)) as [y|] eqn:F.
  - pose proof (find_some _ _ F) as (I & Q).
    assert (Pb : forall id nm d fs, y = mkSym id nm (SyStruct d fs) -> find p (tb_syms (put_body t id SyForeignTag)) = find p (tb_syms t)).
    { intros id nm d fs ->. cbn in Q. apply text_eqb_eq in Q. subst nm. unfold put_body. cbn [set_syms tb_syms]. clear -I U Hp Hi. unfold CompileProofs.unique in U. revert I U. generalize (tb_syms t).
      induction l as [|z l IH]; intros I U; [destruct I|]. cbn in U. inversion U as [|? ? Nz U']; subst. cbn [map find]. destruct I as [->|I].
      - cbn [sy_id sy_name]. rewrite Nat.eqb_refl, Hi, (Hp (mkSym id name (SyStruct d fs))) by (cbn; apply text_eqb_refl).
        f_equal. rewrite <- (map_id l) at 2. apply map_ext_in. intros w Iw. destruct (Nat.eqb_spec (sy_id w) id) as [Q|]; auto. exfalso. apply Nz. cbn. rewrite <- Q. apply in_map. exact Iw.
      - destruct (Nat.eqb_spec (sy_id z) id) as [Q|_]; [exfalso; apply Nz; apply (in_map sy_id) in I; cbn in I; congruence|]. rewrite IH by auto. reflexivity. }
    destruct y as [id nm b]. destruct b as [| | | |[]| | |]; try (injection E as <-; reflexivity). injection E as <-. eapply Pb. reflexivity.
  - injection E as <-. cbn. rewrite find_app. destruct (find p (tb_syms t)); auto. cbn. rewrite Hi. reflexivity.
Qed.
