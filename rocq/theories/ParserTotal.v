(** * The parser always answers *)
From Verif Require Import Base Token Lexer Values Strings Syntax Symbols Parser ParserSpec Stream Code Compile Layout CompileProofs TableInv ParserInv.
Local Open Scope nat_scope.

(** ** Tables only grow *)
Definition kind_le (b b' : symbody) : Prop :=
  match b, b' with
  | SyGlobal _ _ _, SyGlobal _ _ _ => True
  | SyConst _, SyConst _ => True
  | SyFunc _ args locals ret, SyFunc _ args' locals' ret' =>
      length args <= length args' /\ length locals <= length locals' /\ (ret <> None -> ret' <> None)
  | SyForeign _ _ _ _ _, SyForeign _ _ _ _ _ => True
  | SyStruct _ _, SyStruct _ _ => True
  | SyForeignTag, SyForeignTag => True
  | SyNullable _, SyNullable _ => True
  | SyModule, SyModule => True
  | _, _ => False
  end.
Lemma kind_le_refl b : kind_le b b.
Proof. destruct b; cbn; auto. Qed.
Lemma kind_le_trans a b c : kind_le a b -> kind_le b c -> kind_le a c.
Proof. destruct a, b; cbn; try tauto; destruct c; cbn; try tauto. intros (? & ? & ?) (? & ? & ?). split; [lia|]. split; [lia|auto]. Qed.

Record grows (t t' : tbl) : Prop := mkGrows {
  gr_kind : forall id y, sym_at t id = Some y -> exists y', sym_at t' id = Some y' /\ kind_le (sy_body y) (sy_body y');
  gr_func : tb_func t' = tb_func t
}.
Lemma grows_refl t : grows t t.
Proof. constructor; auto. intros id y E. exists y. split; auto. apply kind_le_refl. Qed.
Lemma grows_trans a b c : grows a b -> grows b c -> grows a c.
Proof.
  intros [K1 F1] [K2 F2]. constructor; [|congruence]. intros id y E. destruct (K1 _ _ E) as (y1 & E1 & L1).
  destruct (K2 _ _ E1) as (y2 & E2 & L2). exists y2. split; auto. eapply kind_le_trans; eauto.
Qed.

Record sane (t : tbl) : Prop := mkSane {
  sn_unique : unique t;
  sn_next : Forall (fun y => sy_id y < tb_next t) (tb_syms t);
  sn_func : forall f, tb_func t = Some f -> exists n i a l r, sym_at t f = Some (mkSym f n (SyFunc i a l r))
}.

Lemma sym_at_app t id x l : tb_syms t = l ++ [x] -> sym_at t id = match find (fun s => sy_id s =? id) l with
  | Some y => Some y | None => if sy_id x =? id then Some x else None end.
Proof.
  unfold sym_at. intros ->. induction l as [|y l IH]; cbn; [destruct (sy_id x =? id); auto|]. destruct (sy_id y =? id); auto.
Qed.

(** what [new_sym] makes of a table, with any counters *)
Lemma new_sane t t' name b : sane t -> tb_syms t' = tb_syms t ++ [mkSym (tb_next t) name b] -> tb_next t' = S (tb_next t) ->
  tb_func t' = tb_func t -> sane t' /\ grows t t' /\ sym_at t' (tb_next t) = Some (mkSym (tb_next t) name b).
Proof.
  intros S E1 E2 E3.
  assert (Fr : forall y, In y (tb_syms t) -> sy_id y < tb_next t) by (apply Forall_forall; apply (sn_next _ S)).
  assert (G : grows t t').
  { constructor; auto. intros id y E. exists y. rewrite (sym_at_app t' id _ _ E1). unfold sym_at in E. rewrite E. split; auto. apply kind_le_refl. }
  split; [|split; auto].
  - constructor.
    + unfold unique. rewrite E1, map_app. cbn [map]. rewrite <- (rev_involutive (_ ++ _)), rev_app_distr. apply NoDup_rev. cbn. constructor; [|apply NoDup_rev, (sn_unique _ S)]. intros I. apply in_rev in I. revert I.
      intros I. apply in_map_iff in I as (y & Ey & I). specialize (Fr y I). cbn in *. lia.
    + rewrite E1, E2. apply Forall_app. split; [|repeat constructor; cbn; lia]. eapply Forall_impl; [|apply (sn_next _ S)]. cbn. lia.
    + intros f Ef. rewrite E3 in Ef. destruct (sn_func _ S f Ef) as (n & i & a & l & r & A).
      rewrite (sym_at_app t' f _ _ E1). unfold sym_at in A. rewrite A. eauto 6.
  - rewrite (sym_at_app t' _ _ _ E1). cbn [sy_id]. rewrite Nat.eqb_refl.
    destruct (find _ (tb_syms t)) as [y|] eqn:F; auto. apply find_some in F as [I Ey]. apply Nat.eqb_eq in Ey. specialize (Fr y I). lia.
Qed.

Lemma put_sane t id y b : sane t -> sym_at t id = Some y -> kind_le (sy_body y) b ->
  sane (put_body t id b) /\ grows t (put_body t id b) /\ sym_at (put_body t id b) id = Some (mkSym id (sy_name y) b).
Proof.
  intros S E K.
  assert (A : forall i, sym_at (put_body t id b) i = if i =? id then Some (mkSym id (sy_name y) b) else sym_at t i)
    by (intros; apply sym_at_put; auto).
  assert (M : map sy_id (tb_syms (put_body t id b)) = map sy_id (tb_syms t)) by (apply put_map; intros; cbn; auto).
  split; [constructor|split; [constructor|]].
  - unfold unique. rewrite M. apply (sn_unique _ S).
  - apply Forall_map with (f := sy_id) (P := fun i => i < tb_next t). rewrite M. apply Forall_map. apply (sn_next _ S).
  - intros f Ef. rewrite A. destruct (Nat.eqb_spec f id) as [->|N]; [|exact (sn_func _ S f Ef)].
    destruct (sn_func _ S id Ef) as (n & i & a & l & r & B). rewrite E in B. injection B as ->. cbn in K. destruct b; try tauto. eauto 6.
  - intros i z Ez. rewrite A. destruct (Nat.eqb_spec i id) as [->|N]; [|exists z; split; auto; apply kind_le_refl].
    rewrite E in Ez. injection Ez as <-. eauto.
  - reflexivity.
  - rewrite A, Nat.eqb_refl. reflexivity.
Qed.

Lemma sane_same t t' : tb_syms t' = tb_syms t -> tb_next t' = tb_next t -> tb_func t' = tb_func t -> sane t -> sane t' /\ grows t t'.
Proof.
  intros E1 E2 E3 S. assert (A : forall i, sym_at t' i = sym_at t i) by (intros; unfold sym_at; rewrite E1; auto). split; constructor.
  - unfold unique. rewrite E1. apply S.
  - rewrite E1, E2. apply S.
  - rewrite E3. intros f F. rewrite A. apply (sn_func _ S f F).
  - intros id y E. exists y. rewrite A. split; auto. apply kind_le_refl.
  - auto.
Qed.

(** ** Table operations that answer *)
Definition tw {A} (m : tbl -> cres tbl A) (t : tbl) (Q : A -> tbl -> Prop) : Prop :=
  match m t with COk a t' => Q a t' | CFail _ => True | _ => False end.
Definition fine (t t' : tbl) : Prop := sane t' /\ grows t t' /\ tb_strings t' = tb_strings t.
Lemma fine_refl t : sane t -> fine t t.
Proof. intros S. split; auto. split; auto. apply grows_refl. Qed.

Lemma tw_reference name t : sane t -> tw (reference_variable name) t (fun _ t' => t' = t).
Proof.
  intros S. unfold tw, reference_variable. destruct (tb_func t) as [f|] eqn:F; [|reflexivity].
  destruct (sn_func _ S f F) as (n & i & a & l & r & ->). destruct (find_index _ l 0); [reflexivity|]. destruct (find_index _ a 0); reflexivity.
Qed.
Lemma tw_declare_struct name b t : sane t -> tw (declare_struct name b) t (fun id t' => fine t t' /\
  exists n d fs, sym_at t' id = Some (mkSym id n (SyStruct d fs))).
Proof.
  intros S. unfold tw, declare_struct. destruct (if b then get_struct_tag t name else None) as [y|] eqn:E.
  - split; [apply fine_refl; auto|]. destruct b; [|discriminate]. unfold get_struct_tag in E. apply find_some in E as [I N].
    pose proof (in_sym_at t y (sn_unique _ S) I) as A. destruct y as [i n bd]. unfold is_struct_named in N. cbn in *. destruct bd; try discriminate. eauto.
  - cbn [new_sym]. destruct (new_sane t (snd (new_sym t name (SyStruct false []))) name (SyStruct false []) S eq_refl eq_refl eq_refl) as (S1 & G & A).
    split; [split; [exact S1|split; [exact G|reflexivity]]|]. exists name, false, []. exact A.
Qed.
Definition known (t : tbl) (g : tag) : Prop := match g with GSym id => exists y, sym_at t id = Some y | _ => True end.
Lemma tw_tag_from_name name t : sane t -> tw (tag_from_name name) t (fun g t' => fine t t' /\ known t' g).
Proof.
  intros S. unfold tw, tag_from_name. destruct (prim_tag name) as [g|] eqn:P.
  - split; [apply fine_refl; auto|]. unfold prim_tag in P. 
    repeat match type of P with context [if ?c then _ else _] => destruct c; [injection P as <-; exact I|] end. discriminate.
  - destruct (find (is_type_named name) (tb_syms t)) as [y|] eqn:E.
    + split; [apply fine_refl; auto|]. apply find_some in E as [I _]. exists y. exact (in_sym_at t y (sn_unique _ S) I).
    + pose proof (tw_declare_struct name false t S) as D. unfold tw in D. destruct (declare_struct name false t) as [id t1| | | | |]; auto.
      destruct D as (F & n & d & fs & A). split; auto. cbn. eauto.
Qed.
Lemma tw_nullable g t : sane t -> known t g -> tw (get_nullable g) t (fun g' t' => fine t t').
Proof.
  intros S K. unfold tw, get_nullable. destruct (find _ (tb_syms t)) as [y|] eqn:E; [apply fine_refl; auto|].
  destruct (tag_name t g) as [n|] eqn:N.
  2:{ destruct g; cbn in N; try discriminate. destruct K as (y & A). rewrite A in N. discriminate. }
  cbn [new_sym]. destruct (new_sane t (snd (new_sym t (firstn 255 (n ++ text_of "?")) (SyNullable g))) _ (SyNullable g) S eq_refl eq_refl eq_refl) as (S1 & G & A).
  split; auto.
Qed.
Lemma tw_close t : sane t -> tw close_scope t (fun _ t' => fine t t').
Proof.
  intros S. unfold tw, close_scope. destruct (tb_func t) as [f|] eqn:F.
  - destruct (sn_func _ S f F) as (n & i & a & l & r & E). rewrite E.
    destruct (put_sane t f _ (SyFunc i a (map (end_scope (tb_scope t)) l) r) S E) as (S1 & G & _).
    { cbn. rewrite map_length. auto. }
    destruct (sane_same (put_body t f (SyFunc i a (map (end_scope (tb_scope t)) l) r)) (set_scope (put_body t f (SyFunc i a (map (end_scope (tb_scope t)) l) r)) (pred (tb_scope t))) eq_refl eq_refl eq_refl S1) as (S2 & G2).
    split; auto. split; [eapply grows_trans; eauto|reflexivity].
  - destruct (sane_same t (set_scope t (pred (tb_scope t))) eq_refl eq_refl eq_refl S). split; auto.
Qed.
Lemma open_fine t : sane t -> fine t (open_scope t).
Proof. intros S. destruct (sane_same t (open_scope t) eq_refl eq_refl eq_refl S). split; auto. Qed.

Definition has_var (t : tbl) (r : vref) : Prop :=
  match r with
  | RGlobal id => exists n i b g, sym_at t id = Some (mkSym id n (SyGlobal i b g))
  | RLocal f k => exists n i a l g, sym_at t f = Some (mkSym f n (SyFunc i a l g)) /\ k < length l
  | _ => False
  end.
Lemma sym_id t id y : sym_at t id = Some y -> sy_id y = id.
Proof. intros E. apply sym_at_in in E. tauto. Qed.
Lemma has_var_grows t t' r : grows t t' -> has_var t r -> has_var t' r.
Proof.
  intros [K _]. destruct r as [id|id|f k|f k]; cbn; try tauto.
  - intros (n & i & b & g & E). destruct (K _ _ E) as (y & E' & Le). pose proof (sym_id _ _ _ E') as Ei. destruct y as [j m bd]. cbn in *.
    destruct bd; try tauto. subst j. eauto.
  - intros (n & i & a & l & g & E & L). destruct (K _ _ E) as (y & E' & Le). pose proof (sym_id _ _ _ E') as Ei. destruct y as [j m b]. cbn in *.
    destruct b; try tauto. subst j. exists m, index, args, locals, ret. split; auto. lia.
Qed.
Lemma tw_declare_local name f t : sane t -> tb_func t = Some f -> tw (declare_local name) t (fun r t' => fine t t' /\ has_var t' r).
Proof.
  intros S F. unfold tw, declare_local. rewrite F. destruct (sn_func _ S f F) as (n & i & a & l & r & E). rewrite E.
  destruct (find_index _ l 0); [exact I|].
  set (v := mkLv name (Z.of_nat (length l)) (tb_scope t) false false None).
  destruct (put_sane t f _ (SyFunc i a (l ++ [v]) r) S E) as (S1 & G & A). { cbn. rewrite app_length. auto with arith. }
  split; [split; auto|]. cbn. exists n, i, a, (l ++ [v]), r. split; [exact A|]. rewrite app_length. cbn. lia.
Qed.
Lemma tw_declare_global name t : sane t -> tw (declare_global name) t (fun r t' => fine t t' /\ has_var t' r).
Proof.
  intros Sa. pose proof (tw_reference name t Sa) as R. unfold tw, declare_global, cbind in *.
  destruct (reference_variable name t) as [o t1| | | | |]; auto; try tauto. subst t1.
  assert (N : let '(id, t1) := new_sym t name (SyGlobal (tb_nglob t) false None) in
    fine t (set_nglob t1 (S (tb_nglob t))) /\ has_var (set_nglob t1 (S (tb_nglob t))) (RGlobal id)).
  { cbn [new_sym]. set (t1 := set_nglob _ _).
    destruct (new_sane t t1 name (SyGlobal (tb_nglob t) false None) Sa eq_refl eq_refl eq_refl) as (S1 & G & A).
    split; [split; auto|]. cbn. eauto. }
  destruct o as [[]|]; cbn; auto; exact N.
Qed.
Lemma tw_set_tag r g t : sane t -> has_var t r -> tw (set_var_tag r g) t (fun _ t' => fine t t').
Proof.
  intros S V. unfold tw, set_var_tag. destruct r as [id|id|f k|f k]; cbn in V; try tauto.
  - destruct V as (n & i & b & g0 & E). rewrite E. destruct (put_sane t id _ (SyGlobal i b (Some g)) S E I) as (S1 & G & _). split; auto.
  - destruct V as (n & i & a & l & g0 & E & L). cbn [put_var]. rewrite E. destruct (nth_error l k) as [v|] eqn:N.
    2:{ apply nth_error_None in N. lia. }
    destruct (put_sane t f _ (SyFunc i a (update l k (lv_set_tag g v)) g0) S E) as (S1 & G & _).
    { cbn. rewrite update_length. auto. }
    split; auto.
Qed.
Lemma tw_declare_const name c t : sane t -> tw (declare_const name c) t (fun _ t' => fine t t').
Proof.
  intros S. pose proof (tw_reference name t S) as R. unfold tw, declare_const, cbind in *.
  destruct (reference_variable name t) as [o t1| | | | |]; auto; try tauto. subst t1.
  destruct o; cbn; auto. set (t1 := mkTbl _ _ _ _ _ _ _ _).
  destruct (new_sane t t1 name (SyConst c) S eq_refl eq_refl eq_refl) as (S1 & G & A). split; auto.
Qed.
Lemma tw_declare_function name t : sane t -> tw (declare_function name) t (fun f t' => fine t t' /\
  exists n i a l r, sym_at t' f = Some (mkSym f n (SyFunc i a l r))).
Proof.
  intros S. unfold tw, declare_function. cbn [new_sym]. set (t1 := set_nfun _ _).
  destruct (new_sane t t1 name (SyFunc (tb_nfun t) [] [] None) S eq_refl eq_refl eq_refl) as (S1 & G & A). split; [split; auto|]. eauto 6.
Qed.
Lemma tw_declare_arg n name g f t : sane t -> tb_func t = Some f -> tw (declare_argument n name g) t (fun _ t' => fine t t').
Proof.
  intros S F. unfold tw, declare_argument. rewrite F. destruct (sn_func _ S f F) as (m & i & a & l & r & E). rewrite E.
  destruct (find_index _ a 0); [exact I|]. set (v := mkLv _ _ _ _ _ _).
  destruct (put_sane t f _ (SyFunc i (a ++ [v]) l r) S E) as (S1 & G & A). { cbn. rewrite app_length. auto with arith. }
  split; auto.
Qed.
Lemma tw_set_ret f g t : sane t -> (exists n i a l r, sym_at t f = Some (mkSym f n (SyFunc i a l r))) ->
  tw (set_ret f g) t (fun _ t' => fine t t' /\ exists n i a l, sym_at t' f = Some (mkSym f n (SyFunc i a l (Some g)))).
Proof.
  intros S (n & i & a & l & r & E). unfold tw, set_ret. rewrite E.
  destruct (put_sane t f _ (SyFunc i a l (Some g)) S E) as (S1 & G & A). { cbn. split; auto. split; auto. discriminate. }
  split; [split; auto|]. eauto 6.
Qed.
Lemma tw_intern x t : sane t -> length (tb_strings t) < max_strings ->
  tw (intern x) t (fun _ t' => sane t' /\ grows t t' /\ length (tb_strings t') <= S (length (tb_strings t))).
Proof.
  intros S L. unfold tw, intern, register_string. destruct (find_string _ _ 0) as [i|].
  - destruct (sane_same t (set_strings t (tb_strings t)) eq_refl eq_refl eq_refl S). split; [auto|split; [auto|cbn; lia]].
  - destruct (Nat.ltb_spec (length (tb_strings t)) max_strings); [|lia]. cbn [oassert].
    set (t1 := set_strings _ _). destruct (sane_same t t1 eq_refl eq_refl eq_refl S). split; [auto|split; [auto|cbn; rewrite app_length; cbn; lia]].
Qed.

(** ** Parser steps that answer *)
Lemma nodes_pos e : 1 <= nodes e.
Proof. destruct e; cbn; lia. Qed.

Lemma nodes_call f es : nodes (ECall f es) = S (nodes_all es).
Proof. reflexivity. Qed.
Lemma nodes_new i ns es : nodes (ENew i ns es) = S (nodes_all es).
Proof. reflexivity. Qed.
Lemma nodes_cons e es : nodes_all (e :: es) = nodes e + nodes_all es.
Proof. reflexivity. Qed.
Lemma nodes_nil : nodes_all [] = 0.
Proof. reflexivity. Qed.

Section Total.
Variable hang : Prop.

Definition proper_b (k : tokkind) : bool := match k with TEOF | LEXER_ERROR => false | _ => true end.
(** tokens not consumed; the token at which the stream ended for good does not count *)
Definition left (s : pst) : nat :=
  match ps_toks s with
  | [] => if proper_b (tk (ps_tok s)) then 1 else 0
  | ts => S (length ts)
  end.
Definition is_str (t : token) : nat := if tok_eqb (tk t) STRING then 1 else 0.
Definition strs (s : pst) : nat := fold_right (fun t n => is_str t + n) 0 (ps_tok s :: ps_toks s).

Record inv (s : pst) : Prop := mkInv {
  in_chain : chained (tk_lexeme (ps_tok s)) (ps_toks s) (ps_end s);
  in_tok : wordless (tk (ps_tok s)) \/ tk_lexeme (ps_tok s) <> None;
  in_hang : ps_end s = SHang -> hang;
  in_sane : sane (ps_tbl s);
  in_strs : length (tb_strings (ps_tbl s)) + strs s <= max_strings
}.
Lemma left_pos s : proper_b (tk (ps_tok s)) = true -> 1 <= left s.
Proof. unfold left. destruct (ps_toks s); [intros ->|]; lia. Qed.
Lemma left_k s k : tk (ps_tok s) = k -> proper_b k = true -> 1 <= left s.
Proof. intros <-. apply left_pos. Qed.

Definition wp {A} (m : pm A) (s : pst) (Q : A -> pst -> Prop) : Prop :=
  match m s with COk a s' => Q a s' | CFail _ => True | CHang => hang | _ => False end.

Lemma wp_bind {A B} (m : pm A) (f : A -> pm B) s Q : wp m s (fun a s' => wp (f a) s' Q) -> wp (cbind m f) s Q.
Proof. unfold wp, cbind. destruct (m s); auto. Qed.
Lemma wp_mono {A} (m : pm A) s (Q Q' : A -> pst -> Prop) : wp m s Q -> (forall a s', Q a s' -> Q' a s') -> wp m s Q'.
Proof. unfold wp. destruct (m s); auto. Qed.
Lemma wp_ret {A} (a : A) s (Q : A -> pst -> Prop) : Q a s -> wp (cret a) s Q.
Proof. auto. Qed.
Lemma wp_fail {A} s (Q : A -> pst -> Prop) : wp cfail s Q.
Proof. exact I. Qed.
Lemma wp_last s (Q : tokkind -> pst -> Prop) : Q (tk (ps_tok s)) s -> wp last_tok s Q.
Proof. auto. Qed.
Lemma wp_line s (Q : Z -> pst -> Prop) : (forall z, Q z s) -> wp the_line s Q.
Proof. intros H. apply H. Qed.
Lemma wp_int s (Q : Z -> pst -> Prop) : (forall z, Q z s) -> wp the_int s Q.
Proof. intros H. apply H. Qed.
Lemma wp_the_tbl s (Q : tbl -> pst -> Prop) : Q (ps_tbl s) s -> wp the_tbl s Q.
Proof. destruct s. auto. Qed.
Lemma wp_expect k s (Q : unit -> pst -> Prop) : (tk (ps_tok s) = k -> Q tt s) -> wp (expect k) s Q.
Proof.
  intros H. unfold wp, expect, cbind, last_tok, cret, cfail. destruct (tok_eqb (tk (ps_tok s)) k) eqn:E; auto. apply H. apply tok_eqb_eq. exact E.
Qed.
Lemma wp_lexeme s (Q : text -> pst -> Prop) : tk_lexeme (ps_tok s) <> None -> (forall x, Q x s) -> wp lexeme s Q.
Proof. intros N H. unfold wp, lexeme. destruct (tk_lexeme (ps_tok s)); [apply H|congruence]. Qed.
Lemma inv_lexeme s : inv s -> ~ wordless (tk (ps_tok s)) -> tk_lexeme (ps_tok s) <> None.
Proof. intros I N. destruct (in_tok _ I); tauto. Qed.

(** Between the table [T] and the state [s] nothing was lost *)
Definition ok (T : tbl) (s : pst) : Prop := inv s /\ grows T (ps_tbl s).
Lemma ok_self T s : ok T s -> ok (ps_tbl s) s.
Proof. intros [I _]. split; auto. apply grows_refl. Qed.
Lemma ok_from T T' s : grows T T' -> ok T' s -> ok T s.
Proof. intros G [I G']. split; auto. eapply grows_trans; eauto. Qed.
Lemma ok_lexeme T s k : ok T s -> tk (ps_tok s) = k -> ~ wordless k -> tk_lexeme (ps_tok s) <> None.
Proof. intros [I _] <-. apply inv_lexeme; auto. Qed.

Definition strs_after (s : pst) : nat := fold_right (fun t n => is_str t + n) 0 (ps_toks s).
Lemma wp_next0 T s (Q : unit -> pst -> Prop) : chained (tk_lexeme (ps_tok s)) (ps_toks s) (ps_end s) ->
  (ps_end s = SHang -> hang) -> sane (ps_tbl s) -> length (tb_strings (ps_tbl s)) + strs_after s <= max_strings ->
  grows T (ps_tbl s) ->
  (forall s', ok T s' -> left s' <= left s - 1 -> (tk_lexeme (ps_tok s) <> None -> tk_lexeme (ps_tok s') <> None) ->
     ps_tbl s' = ps_tbl s -> Q tt s') -> wp next_token s Q.
Proof.
  intros C Hg Sa St G H. unfold wp, next_token. destruct (ps_toks s) as [|t ts] eqn:E.
  - cbn [chained] in C. destruct (ps_end s) as [t| |] eqn:En; [|apply Hg; auto|destruct C].
    destruct C as ((F1 & F2) & K). assert (Z : is_str t = 0) by (unfold is_str; destruct K as [->| ->]; reflexivity).
    apply H; cbn [ps_tok ps_tbl ps_toks ps_end]; auto.
    + split; [|exact G]. constructor; cbn [ps_tok ps_tbl ps_toks ps_end]; auto.
      * cbn. split; [split; auto|auto].
      * unfold strs_after, strs in *. cbn [ps_tok ps_toks fold_right] in *. lia.
    + unfold left. cbn [ps_tok ps_toks]. rewrite E. destruct K as [->| ->]; cbn; lia.
  - cbn [chained] in C. destruct C as ((F1 & F2) & C). apply H; cbn [ps_tok ps_tbl ps_toks ps_end]; auto.
    + split; [|exact G]. constructor; cbn [ps_tok ps_tbl ps_toks ps_end]; auto.
      unfold strs_after, strs in *. rewrite E in St. cbn [ps_tok ps_toks fold_right] in *. lia.
    + unfold left. cbn [ps_tok ps_toks]. rewrite E. cbn [length]. destruct ts; [destruct (proper_b (tk t))|]; cbn [length]; lia.
Qed.
Lemma wp_next T s (Q : unit -> pst -> Prop) : ok T s ->
  (forall s', ok T s' -> left s' <= left s - 1 -> (tk_lexeme (ps_tok s) <> None -> tk_lexeme (ps_tok s') <> None) -> 
     ps_tbl s' = ps_tbl s -> Q tt s') -> wp next_token s Q.
Proof.
  intros [I G] H. destruct I as [C Tk Hg Sa St]. eapply wp_next0; eauto. unfold strs_after, strs in *. cbn [fold_right] in St. lia.
Qed.

Lemma wp_tbl {A} (m : tbl -> cres tbl A) s (Q : A -> pst -> Prop) :
  tw m (ps_tbl s) (fun a t' => Q a (mkPst t' (ps_toks s) (ps_end s) (ps_tok s))) -> wp (on_tbl m) s Q.
Proof. unfold tw, wp, on_tbl. destruct (m (ps_tbl s)); tauto. Qed.

Lemma wp_fine {A} T (m : tbl -> cres tbl A) s (P : A -> tbl -> Prop) (Q : A -> pst -> Prop) : ok T s ->
  tw m (ps_tbl s) (fun a t' => fine (ps_tbl s) t' /\ P a t') ->
  (forall a s', ok T s' -> grows (ps_tbl s) (ps_tbl s') -> ps_tok s' = ps_tok s -> left s' = left s -> P a (ps_tbl s') -> Q a s') -> wp (on_tbl m) s Q.
Proof.
  intros [I G] Tw H. apply wp_tbl. unfold tw in *. destruct (m (ps_tbl s)) as [a t'| | | | |]; auto. destruct Tw as ((S1 & G1 & E) & Pa).
  apply H; auto. destruct I as [C Tk Hg Sa St]. split; [|eapply grows_trans; eauto]. constructor; cbn; auto. rewrite E. exact St.
Qed.
Lemma tw_weak {A} (m : tbl -> cres tbl A) t (P Q : A -> tbl -> Prop) : tw m t P -> (forall a t', P a t' -> Q a t') -> tw m t Q.
Proof. unfold tw. destruct (m t); auto. Qed.
Lemma tw_and {A} (m : tbl -> cres tbl A) t : tw m t (fun _ t' => fine t t') -> tw m t (fun _ t' => fine t t' /\ True).
Proof. unfold tw. destruct (m t); auto. Qed.
Lemma wp_mod T (f : tbl -> tbl) s (Q : unit -> pst -> Prop) : ok T s -> fine (ps_tbl s) (f (ps_tbl s)) ->
  (forall s', ok T s' -> ps_tbl s' = f (ps_tbl s) -> ps_tok s' = ps_tok s -> left s' = left s -> Q tt s') -> wp (mod_tbl f) s Q.
Proof. intros I F H. unfold mod_tbl. apply wp_tbl. unfold tw. apply H; auto. destruct I as [[C Tk Hg Sa St] G]. destruct F as (S1 & G1 & E).
  split; [|eapply grows_trans; eauto]. constructor; cbn; auto. rewrite E. exact St. Qed.

Lemma wp_string {A} T s x (f : nat -> A) (Q : A -> pst -> Prop) : ok T s -> tk (ps_tok s) = STRING ->
  (forall i s', ok T s' -> left s' <= left s - 1 -> Q (f i) s') ->
  wp (on_tbl (intern x)) s (fun i s' => wp (cbind next_token (fun _ => cret (f i))) s' Q).
Proof.
  intros [I G] K H. destruct I as [C Tk Hg Sa St]. unfold strs, is_str in St. cbn [fold_right] in St. rewrite K in St. cbn in St.
  apply wp_tbl. pose proof (tw_intern x (ps_tbl s) Sa ltac:(lia)) as W. unfold tw in *.
  destruct (intern x (ps_tbl s)) as [i t'| | | | |]; try tauto. destruct W as (S1 & G1 & L1). apply wp_bind. apply wp_next0 with (T := T); cbn; auto.
  - unfold strs_after. cbn. unfold is_str. lia.
  - eapply grows_trans; eauto.
Qed.

Ltac toks := repeat match goal with
  | H : tok_eqb (tk (ps_tok ?s)) ?k = true |- _ => apply tok_eqb_eq in H
  | H : ?k = tk (ps_tok ?s) |- _ => symmetry in H end.
Ltac pos := toks; repeat match goal with
  | H : tk (ps_tok ?s) = ?k |- _ => lazymatch goal with P : 1 <= left s |- _ => fail | _ => pose proof (left_k s k H eq_refl) end end.
Ltac word := toks; first
  [ match goal with O : ok _ ?s, H : tk (ps_tok ?s) = ?k |- tk_lexeme (ps_tok ?s) <> None =>
    apply (ok_lexeme _ _ _ O H); intros [D|[D|D]]; discriminate D end
  | match goal with X : tk_lexeme (ps_tok ?s) <> None -> tk_lexeme (ps_tok ?s') <> None |- tk_lexeme (ps_tok ?s') <> None =>
      apply X; word end ].
Ltac st := match goal with
  | |- wp (cbind _ _) _ _ => apply wp_bind
  | |- wp (cret _) _ _ => apply wp_ret
  | |- wp cfail _ _ => apply wp_fail
  | |- wp last_tok _ _ => apply wp_last
  | |- wp the_line _ _ => apply wp_line; intro
  | |- wp the_int _ _ => apply wp_int; intro
  | |- wp the_tbl _ _ => apply wp_the_tbl
  | |- wp (expect _) _ _ => apply wp_expect; intro
  | |- wp (get_expect _) _ _ => unfold get_expect
  | |- wp lexeme _ _ => apply wp_lexeme; [word|intro]
  | H : ok ?T ?s |- wp next_token ?s _ => apply (wp_next T s _ H); do 5 intro
  | |- wp (if ?c then _ else _) _ _ => destruct c eqn:?
  end.
Ltac ar := pos; cbn [snd fst] in *; rewrite ?nodes_call, ?nodes_new, ?nodes_cons, ?nodes_nil in *; cbn [nodes] in *; repeat match goal with e : expr |- _ => lazymatch goal with P : 1 <= nodes e |- _ => fail | _ => pose proof (nodes_pos e) end end; lia.
Ltac sp := split; [auto|ar].
Ltac fin := repeat match goal with |- _ /\ _ => split end; try eassumption; try ar.

Lemma wp_type T s : ok T s -> wp parse_type s (fun g s' => ok T s' /\ left s' + 1 <= left s).
Proof.
  intros O. unfold parse_type. repeat st. eapply wp_fine; [exact O|apply tw_tag_from_name, (in_sane _ (proj1 O))|].
  intros g s1 O1 G1 E1 L1 K1. do 4 st. st.
  - destruct (tag_eq_dec g GVoid); [apply wp_fail|]. st. eapply wp_fine; [eassumption|apply tw_and, tw_nullable|].
    + eapply in_sane, proj1. eassumption.
    + match goal with E : ps_tbl _ = ps_tbl s1 |- _ => rewrite E end. exact K1.
    + intros g' s2 O2 G2 E2 L2 _. repeat st. fin.
  - st. fin.
Qed.

Definition ans {A} (T : tbl) (s : pst) (w : A -> nat) (b : nat) : A -> pst -> Prop := fun a s' => ok T s' /\ left s' + w a <= left s + b.
Record exprs_ok (n : nat) : Prop := {
  ok_expr : forall T s, ok T s -> 6 * left s + 3 <= n -> wp (parse_expr n) s (ans T s nodes 0);
  ok_factor : forall T s, ok T s -> 6 * left s + 2 <= n -> wp (parse_factor n) s (ans T s nodes 0);
  ok_rhs : forall T s p e, ok T s -> 6 * left s + 1 <= n -> wp (parse_rhs n p e) s (ans T s nodes (nodes e));
  ok_suffix : forall T s e, ok T s -> 6 * left s + 1 <= n -> wp (parse_suffix n e) s (ans T s nodes (nodes e));
  ok_value : forall T s, ok T s -> 6 * left s + 1 <= n -> wp (parse_value n) s (ans T s nodes 0);
  ok_dots : forall T s e, ok T s -> 6 * left s + 1 <= n -> wp (parse_dots n e) s (ans T s nodes (nodes e));
  ok_call : forall T s, ok T s -> tk (ps_tok s) = OPENPAREN -> 6 * left s + 1 <= n -> wp (parse_call n) s (ans T s (fun es => S (nodes_all es)) 0);
  ok_args : forall T s, ok T s -> 6 * left s + 4 <= n -> wp (parse_args n) s (ans T s nodes_all 0);
  ok_new : forall T s, ok T s -> 6 * left s + 4 <= n -> wp (parse_new n) s (ans T s (fun x => nodes_all (snd x)) 0)
}.
Ltac use L := match goal with O : ok ?T ?s |- wp _ ?s _ => eapply wp_mono; [eapply (L T s); [exact O|..]|let O' := fresh "O" in let L' := fresh "L" in intros ? ? [O' L']; rewrite ?nodes_call, ?nodes_new in L'; cbn [nodes] in L'] end; try ar.
Lemma exprs_total n : exprs_ok n.
Proof.
  induction n as [|n IH]; [constructor; intros; lia|]. destruct IH as [He Hf Hr Hs Hv Hd Hc Ha Hn]. constructor; intros.
  - cbn [parse_expr]. st. use Hf. use Hr. sp.
  - cbn [parse_factor]. st. use Hv. use Hs. sp.
  - cbn [parse_rhs]. do 2 st. destruct (prec_of (tk (ps_tok s))) as [q|] eqn:Pq; [|st; sp].
    destruct (bop_of (tk (ps_tok s))) as [o|] eqn:Po; [|st; sp]. st; [st; sp|].
    assert (Lp : 1 <= left s). { apply left_pos. destruct (tk (ps_tok s)); try reflexivity; discriminate. }
    st. st. st. use Hf. do 3 st. st.
    + use Hr. use Hr. sp.
    + st. use Hr. sp.
  - cbn [parse_suffix]. do 2 st. destruct (tk (ps_tok s)) eqn:Ek; try (st; sp).
    all: repeat st; try (use Hs; sp).
    + use He. repeat st. use Hs. sp.
    + use Hc. { assumption. } use Hs. sp.
  - cbn [parse_value]. do 2 st. destruct (tk (ps_tok s)) eqn:Ek; try exact I; try (repeat st; fin; fail); repeat st.
    + use He. repeat st. sp.
    + use Hf. st. sp.
    + use Hf. st. sp.
    + sp.
    + change (wp (cbind next_token (fun _ => cret (EBool (tk_b (ps_tok s))))) s (ans T s nodes 0)). repeat st. sp.
    + sp.
    + sp.
    + change (wp (cbind next_token (fun _ => cret (EFloat (tk_f (ps_tok s))))) s (ans T s nodes 0)). repeat st. sp.
    + apply wp_string with (T := T); auto. intros i s' O L. sp.
    + use Hc. { toks. assumption. } st. sp.
    + match goal with O : ok T s' |- _ => eapply wp_fine; [exact O|apply tw_and; eapply tw_weak; [apply tw_reference, (in_sane _ (proj1 O))|]|] end.
      * intros r t' ->. apply fine_refl. eapply in_sane, proj1; eassumption.
      * intros r s2 O2 _ _ L2 _. st. sp.
    + use He. st. use He. repeat st. use He. st. sp.
    + match goal with O : ok T s' |- _ => eapply wp_fine; [exact O|apply tw_declare_struct, (in_sane _ (proj1 O))|] end.
      intros id s2 O2 _ E2 L2 _. repeat st. use Hn. destruct a as [ns es]. repeat st. sp.
    + use He. repeat st. match goal with O : ok T ?x |- wp parse_type ?x _ => eapply wp_mono; [apply (wp_type _ _ O)|] end.
      intros g s5 [O5 L5]. repeat st. use Hd. sp.
  - cbn [parse_dots]. repeat st.
    + use Hd. sp.
    + split; auto.
  - cbn [parse_call]. do 2 st. rewrite H0. cbn [tok_eqb]. change (wp (cbind next_token (fun _ => cbind (parse_args n) (fun args => cbind next_token (fun _ => cret args)))) s (ans T s (fun es => S (nodes_all es)) 0)). repeat st. use Ha. repeat st. sp.
  - cbn [parse_args]. do 3 st.
    + st. sp.
    + st. use He. st. st. st. eapply wp_mono with (Q := fun _ s2 => ok T s2 /\ left s2 <= left s').
      * repeat st; sp.
      * intros _ s2 [O2 L2]. st. use Ha. st. sp.
  - cbn [parse_new]. do 3 st.
    + st. sp.
    + st. eapply wp_mono with (Q := fun _ s2 => ok T s2 /\ left s2 <= left s).
      { repeat st; sp. }
      intros nm s1 [O1 L1]. st. use He. st. st. st. eapply wp_mono with (Q := fun _ s2 => ok T s2 /\ left s2 <= left s').
      * repeat st; sp.
      * intros _ s2 [O2 L2]. st. use Hn. destruct a0 as [ns es]. st. sp.
Qed.
Ltac usety := match goal with O : ok ?T ?s |- wp parse_type ?s _ => eapply wp_mono; [apply (wp_type T s O)|let O' := fresh "O" in let L' := fresh "L" in intros ? ? [O' L']] end.

Lemma params_total n : forall T s, ok T s -> 6 * left s + 1 <= n -> wp (parse_params n) s (ans T s (fun _ => 0) 0).
Proof.
  induction n as [|n IH]; intros T s O F; [lia|]. cbn [parse_params]. do 3 st; [st; sp|]. repeat st. usety. st. st. st.
  eapply wp_mono with (Q := fun _ s2 => ok T s2 /\ left s2 < left s).
  - repeat st; sp.
  - intros _ s2 [O2 L2]. st. use IH. st. sp.
Qed.
Lemma declare_params_total f k ps : forall T s, ok T s -> tb_func T = Some f -> wp (declare_params k ps) s (fun _ s' => ok T s' /\ ps_tok s' = ps_tok s /\ left s' = left s).
Proof.
  induction ps as [|[name g] ps IH]; intros T s O F; cbn [declare_params]; [st; auto|]. st.
  eapply wp_fine; [exact O|apply tw_and; eapply tw_declare_arg; [apply (in_sane _ (proj1 O))|]|].
  - rewrite (gr_func _ _ (proj2 O)). exact F.
  - intros _ s1 O1 _ E1 L1 _. eapply wp_mono; [apply (IH T); auto|]. cbn. intros _ s2 (O2 & E2 & L2). repeat split; try apply O2; congruence.
Qed.

Lemma grows_struct t t' id n d fs : grows t t' -> sym_at t id = Some (mkSym id n (SyStruct d fs)) ->
  exists n' d' fs', sym_at t' id = Some (mkSym id n' (SyStruct d' fs')).
Proof.
  intros [K _] E. destruct (K _ _ E) as (y & E' & Le). pose proof (sym_id _ _ _ E') as Ei. destruct y as [j m b]. cbn in *. destruct b; try tauto.
  subst j. eauto.
Qed.
Definition is_struct (id : nat) (t : tbl) : Prop := exists n d fs, sym_at t id = Some (mkSym id n (SyStruct d fs)).
Lemma is_struct_grows id t t' : grows t t' -> is_struct id t -> is_struct id t'.
Proof. intros G (n & d & fs & E). eapply grows_struct; eauto. Qed.
Lemma fields_total id n : forall T s, ok T s -> is_struct id T -> 6 * left s + 1 <= n -> wp (parse_fields n id) s (ans T s (fun _ => 0) 0).
Proof.
  induction n as [|n IH]; intros T s O St F; [lia|]. cbn [parse_fields]. do 3 st; [st; sp|]. repeat st.
  destruct (is_struct_grows _ _ _ (proj2 O) St) as (nm & d & fs & ->). st; [st|]. destruct (field_index fs x); [st|].
  repeat st. usety. st.
  assert (Ss : exists nm d fs, sym_at (ps_tbl s'1) id = Some (mkSym id nm (SyStruct d fs))) by (apply (is_struct_grows _ _ _ (proj2 O0) St)).
  destruct Ss as (nm1 & d1 & fs1 & E1).
  eapply wp_fine with (P := fun _ _ => True); [exact O0| |].
  - unfold tw. rewrite E1. split; [|exact I].
    destruct (put_sane (ps_tbl s'1) id _ (SyStruct d1 (fs1 ++ [mkField x a])) (in_sane _ (proj1 O0)) E1 I) as (S1 & G & _). split; auto.
  - intros _ s2 O2 _ E2 L2 _. use IH. { exact St. } sp.
Qed.
Lemma struct_total n T s : ok T s -> tk (ps_tok s) = STRUCT -> 6 * left s <= n -> wp (parse_struct n) s (ans T s (fun _ => 1) 0).
Proof.
  intros O K F. unfold parse_struct. repeat st.
  eapply wp_fine; [eassumption|apply tw_declare_struct; eapply in_sane, proj1; eassumption|].
  intros id s1 O1 _ E1 L1 (nm & d & fs & E). repeat st. rewrite E. destruct d; [st|]. st.
  destruct (put_sane (ps_tbl s1) id _ (SyStruct true fs) (in_sane _ (proj1 O1)) E I) as (S1 & G & A).
  apply wp_mod with (T := T); [exact O1|split; auto|]. intros s2 O2 E2 _ L2. pose proof (ok_self _ _ O2) as O2'.
  assert (St : is_struct id (ps_tbl s2)). { exists nm, true, fs. rewrite E2. exact A. }
  assert (G2 : grows T (ps_tbl s2)) by apply O2.
  do 6 st. st.
  eapply wp_mono; [eapply (fields_total id n (ps_tbl s2)); eauto; ar|].
  intros _ s3 [O3 L3]. do 4 st. match goal with O6 : ok (ps_tbl s2) ?s6 |- wp _ ?s6 _ => rename O6 into O6' end.
  destruct (is_struct_grows _ _ _ (proj2 O6') St) as (nm1 & d1 & fs1 & ->).
  assert (R : forall s6, ok (ps_tbl s2) s6 -> ok T s6) by (intros s6; apply ok_from; exact G2).
  destruct fs1; [st|]. st. sp.
Qed.

Lemma use_args_total n : forall T s, ok T s -> 6 * left s + 1 <= n -> wp (parse_use_args n) s (ans T s (fun _ => 0) 0).
Proof.
  induction n as [|n IH]; intros T s O F; [lia|]. cbn [parse_use_args]. do 3 st; [st; sp|]. do 8 st. st. 
  eapply wp_mono with (Q := fun _ s2 => ok T s2 /\ left s2 < left s).
  - repeat st; sp.
  - intros _ s2 [O2 L2]. st. use IH. st. sp.
Qed.
Lemma use_total n line T s : ok T s -> tk (ps_tok s) = USE -> 6 * left s <= n -> wp (parse_use n line) s (ans T s snodes 0).
Proof.
  intros O K F. unfold parse_use. repeat st. match goal with O : ok T ?x |- wp _ ?x _ => eapply wp_mono; [apply (use_args_total n T x O)|]; [ar|] end.
  intros a s2 [O2 L2]. do 5 st; repeat st; (split; [auto|cbn [snodes]; ar]).
Qed.

Lemma snodes_call line f es : snodes (SCall line f es) = S (nodes_all es).
Proof. reflexivity. Qed.
Lemma simple_total n T s : ok T s -> 6 * left s + 2 <= n -> wp (parse_simple n) s (ans T s snodes 0).
Proof.
  intros O F. unfold parse_simple. do 3 st. use (ok_factor n (exprs_total n)). rename a into lhs, s' into s1.
  assert (W : wp (op <- last_tok ;;
      line <- the_line ;;
      ' (lhs', op') <-
        (if tok_eqb op DECLARE || tok_eqb op COLON then
           match lhs with
           | EId name _ =>
               tb <- the_tbl ;;
               r <- on_tbl (match tb_func tb with
                            | Some _ => declare_local name
                            | None => declare_global name end) ;;
               if tok_eqb op COLON then
                 next_token ;;;
                 g <- parse_type ;;
                 on_tbl (set_var_tag r g) ;;;
                 expect EQUAL ;;;
                 cret (EId name (Some r), EQUAL)
               else cret (EId name (Some r), op)
           | _ => cfail
           end
         else cret (lhs, op)) ;;
      match prec_of op' with
      | Some _ => cfail
      | None =>
          next_token ;;;
          rhs <- parse_expr n ;;
          (if tok_eqb op' DECLARECONST then
             match lhs' with
             | EId name _ =>
                 match const_of rhs with
                 | Some c => on_tbl (declare_const name c)
                 | None => cfail
                 end
             | _ => cfail
             end
           else cret tt) ;;;
          cret (SAsg line op' lhs' rhs)
      end)%cm s1 (ans T s snodes 0)).
  { do 4 st. st. eapply wp_mono with (Q := fun x s2 => ok T s2 /\ left s2 <= left s1 /\ nodes (fst x) <= nodes lhs).
    - st; [|st; cbn; auto]. destruct lhs; try apply wp_fail. do 2 st. st.
      eapply wp_fine with (P := fun r t' => has_var t' r); [exact O0| |].
      + destruct (tb_func (ps_tbl s1)) as [f|] eqn:Ef; [eapply tw_declare_local; eauto|eapply tw_declare_global]; apply (in_sane _ (proj1 O0)).
      + intros r0 s2 O2 _ E2 L2 V. st; [|st; cbn; split; [auto|lia]]. pose proof (ok_self _ _ O2) as O2'. st. st. st. usety. st.
        assert (G2 : grows T (ps_tbl s2)) by apply O2.
        eapply wp_fine; [exact O1|apply tw_and, tw_set_tag; [apply (in_sane _ (proj1 O1))|eapply has_var_grows; [apply O1|exact V]]|].
        intros _ s4 O4 _ E4 L4 _. repeat st. cbn. split; [eapply ok_from; eauto|]. split; ar.
    - intros [lhs' op'] s2 (O2 & L2 & N2). cbn [fst] in N2. destruct (prec_of op'); [st|]. st. st. st. use (ok_expr n (exprs_total n)). st.
      assert (Fi : forall s5, ok T s5 -> left s5 = left s'0 -> wp (cret (SAsg z op' lhs' a)) s5 (ans T s snodes 0)).
      { intros s5 O5 L5. st. split; auto. cbn [snodes]. ar. }
      st; [|st; apply Fi; auto]. destruct lhs'; try apply wp_fail. destruct (const_of a); [|st].
      eapply wp_fine; [exact O1|apply tw_and, tw_declare_const, (in_sane _ (proj1 O1))|]. intros _ s5 O5 _ _ L5 _. apply Fi; auto. }
  destruct lhs; try exact W. st. split; [auto|rewrite snodes_call; ar].
Qed.

Definition ready (t : tbl) : Prop := forall f, tb_func t = Some f -> exists n i a l g, sym_at t f = Some (mkSym f n (SyFunc i a l (Some g))).
Lemma ready_grows t t' : grows t t' -> ready t -> ready t'.
Proof.
  intros [K F] R f E. rewrite F in E. destruct (R f E) as (n & i & a & l & g & S). destruct (K _ _ S) as (y & E' & Le).
  pose proof (sym_id _ _ _ E') as Ei. destruct y as [j m b]. cbn in *. destruct b; try tauto. destruct Le as (_ & _ & Le). subst j.
  destruct ret; [eauto 6|exfalso; apply Le; [discriminate|reflexivity]].
Qed.
Lemma wp_set_func T s o (Q : unit -> pst -> Prop) : ok T s ->
  (forall f, o = Some f -> exists n i a l r, sym_at (ps_tbl s) f = Some (mkSym f n (SyFunc i a l r))) ->
  (forall s', inv s' -> ps_tbl s' = set_func (ps_tbl s) o -> ps_tok s' = ps_tok s -> left s' = left s -> Q tt s') ->
  wp (mod_tbl (fun t => set_func t o)) s Q.
Proof.
  intros [I G] E H. unfold mod_tbl. apply wp_tbl. unfold tw. apply H; auto. destruct I as [C Tk Hg Sa St].
  constructor; cbn; auto. destruct Sa as [U Nx Fu]. constructor; auto.
Qed.
Lemma snodes_pos s : 1 <= snodes s.
Proof. destruct s; cbn; try lia; match goal with o : option _ |- _ => destruct o end; lia. Qed.
Lemma snodes_cons s ss : snodes_all (s :: ss) = snodes s + snodes_all ss.
Proof. reflexivity. Qed.
Lemma snodes_nil : snodes_all [] = 0.
Proof. reflexivity. Qed.
Lemma snodes_block l ss : snodes (SBlock l ss) = S (snodes_all ss).
Proof. reflexivity. Qed.
Lemma sane_of T s : ok T s -> sane (ps_tbl s).
Proof. intros [I _]. apply (in_sane _ I). Qed.
Ltac ps := split; [auto|repeat match goal with e : stmt |- _ => lazymatch goal with P : 1 <= snodes e |- _ => fail | _ => pose proof (snodes_pos e) end end;
  rewrite ?snodes_cons, ?snodes_block, ?snodes_nil; cbn [snodes]; ar].
Ltac useS L := match goal with O : ok ?T ?s |- wp _ ?s _ => eapply wp_mono; [eapply (L T s); [exact O|..]|let O' := fresh "O" in let L' := fresh "L" in intros ? ? [O' L']] end; try assumption; try ar.
Ltac expr := match goal with |- wp (parse_expr ?n) _ _ => use (ok_expr n (exprs_total n)) end.
Ltac opens := match goal with O : ok ?T ?s |- wp (mod_tbl open_scope) ?s _ =>
  apply (wp_mod T open_scope s _ O (open_fine _ (sane_of _ _ O))); do 5 intro end.
Ltac closes := match goal with O : ok ?T ?s |- wp (on_tbl close_scope) ?s _ =>
  eapply (wp_fine T close_scope s _ _ O (tw_and _ _ (tw_close _ (sane_of _ _ O)))); do 7 intro end.

Definition stmt_ok (n : nat) : Prop := forall T s, ok T s -> ready T -> 6 * left s + 4 <= n -> wp (parse_stmt n) s (ans T s snodes 0).
Lemma func_total n T s : stmt_ok n -> ok T s -> tb_func (ps_tbl s) = None -> tk (ps_tok s) = FUNC -> 6 * left s <= n ->
  wp (line <- the_line ;;
              get_expect IDENT ;;;
              name <- lexeme ;;
              f <- on_tbl (declare_function name) ;;
              mod_tbl (fun t => set_func t (Some f)) ;;;
              get_expect OPENPAREN ;;;
              next_token ;;;
              ps <- parse_params n ;;
              declare_params (length ps) ps ;;;
              next_token ;;;
              t' <- last_tok ;;
              (if tok_eqb t' COLON then
                 next_token ;;; g <- parse_type ;; on_tbl (set_ret f g)
               else on_tbl (set_ret f GVoid)) ;;;
              mod_tbl open_scope ;;;
              body <- parse_stmt n ;;
              on_tbl close_scope ;;;
              mod_tbl (fun t => set_func t None) ;;;
              cret (SProc line f body))%cm s (ans T s snodes 0).
Proof.
  intros Hs O Nf K F. repeat st. eapply wp_fine; [eassumption|apply tw_declare_function; eapply sane_of; eassumption|].
  intros f s1 O1 G1 E1 L1 V1. st. eapply wp_set_func; [exact O1|intros ? [= <-]; exact V1|]. intros s2 I2 T2 E2 L2.
  assert (O2 : ok (ps_tbl s2) s2) by (split; [auto|apply grows_refl]).
  assert (V2 : exists n i a l r, sym_at (ps_tbl s2) f = Some (mkSym f n (SyFunc i a l r))) by (rewrite T2; exact V1).
  assert (Ff : tb_func (ps_tbl s2) = Some f) by (rewrite T2; reflexivity).
  assert (K2 : forall id y, sym_at (ps_tbl s) id = Some y -> exists y', sym_at (ps_tbl s2) id = Some y' /\ kind_le (sy_body y) (sy_body y')).
  { intros id y. rewrite T2. change (sym_at (set_func (ps_tbl s1) (Some f)) id) with (sym_at (ps_tbl s1) id).
    match goal with E : ps_tbl s' = ps_tbl s |- _ => rewrite <- E end. apply (gr_kind _ _ G1). }
  assert (Fu : forall s3, ok (ps_tbl s2) s3 -> exists n i a l r, sym_at (ps_tbl s3) f = Some (mkSym f n (SyFunc i a l r))).
  { intros s3 [I3 G3]. apply (sn_func _ (in_sane _ I3)). rewrite (gr_func _ _ G3). exact Ff. }
  do 7 st. match goal with O : ok (ps_tbl s2) ?x |- wp (parse_params _) ?x _ => eapply wp_mono; [apply (params_total n _ _ O)|]; [ar|] end.
  intros ps s3 [O3 L3]. st. eapply wp_mono; [apply (declare_params_total f _ _ _ _ O3 Ff)|]. intros _ s4 (O4 & E4 & L4). do 4 st. st.
  eapply wp_mono with (Q := fun _ s5 => ok (ps_tbl s2) s5 /\ left s5 <= left s4 /\ ready (ps_tbl s5)).
  { assert (R : forall g s0, ok (ps_tbl s2) s0 -> left s0 <= left s4 -> wp (on_tbl (set_ret f g)) s0 (fun _ s5 => ok (ps_tbl s2) s5 /\ left s5 <= left s4 /\ ready (ps_tbl s5))).
    { intros g s0 O5 L5. eapply wp_fine; [exact O5|apply tw_set_ret; [eapply sane_of; eauto|apply Fu; auto]|]. intros _ s6 O6 _ _ L6 (nm & i & a & l & E6).
      split; auto. split; [lia|]. intros f' Ef. rewrite (gr_func _ _ (proj2 O6)), Ff in Ef. injection Ef as <-. eauto 6. }
    repeat st; [usety|]; apply R; auto; ar. }
  intros _ s5 (O5 & L5 & R5). st. pose proof (ok_self _ _ O5) as O5'.
  apply (wp_mod _ open_scope s5 _ O5' (open_fine _ (sane_of _ _ O5'))). intros s6 O6 _ _ L6. st.
  eapply wp_mono; [apply (Hs (ps_tbl s5) s6 O6 R5); ar|]. intros body s7 [O7 L7]. st. closes. st.
  match goal with O : ok _ ?x |- wp _ ?x _ => eapply wp_set_func; [exact O|intros ? [=]|]; rename x into s8, O into O8 end.
  intros s9 I9 T9 _ L9. st. split.
  - split; auto. eapply grows_trans; [apply O|]. constructor.
    + intros id y Ey. destruct (K2 _ _ Ey) as (y2 & Ey2 & Le2). destruct (gr_kind _ _ (proj2 O5) _ _ Ey2) as (y5 & Ey5 & Le5).
      destruct (gr_kind _ _ (proj2 O8) _ _ Ey5) as (y8 & Ey8 & Le8). exists y8. split; [rewrite T9; exact Ey8|]. eauto using kind_le_trans.
    + rewrite T9. cbn. congruence.
  - cbn [snodes]. ar.
Qed.

Definition block_ok (n : nat) : Prop := forall T s, ok T s -> ready T -> 6 * left s + 5 <= n -> wp (parse_block n) s (ans T s snodes_all 0).
Lemma stmts_total n : stmt_ok n /\ block_ok n.
Proof.
  induction n as [|n [Hs Hb]]; [split; intros ? ? ? ?; lia|]. split; intros T s O R F.
  - cbn [parse_stmt]. do 2 st. destruct (tk (ps_tok s)) eqn:Ek; try (eapply wp_mono; [apply simple_total with (T := T); [exact O|lia]|auto]; fail).
    + repeat st. opens. st. useS Hb. repeat st. closes. st. ps.
    + repeat st. expr. st. useS Hs. do 3 st.
      * do 3 st. useS Hs. st. ps.
      * st. ps.
    + repeat st. expr. st. opens. st. useS Hs. st. closes. st. ps.
    + repeat st. opens. st. useS Hs. repeat st. expr. repeat st. useS Hs. st. useS Hs. st. closes. st. ps.
    + do 2 st. destruct (tb_func (ps_tbl s)) as [f|] eqn:Ef; [|st]. do 6 st. st; [repeat st; ps|]. do 2 st.
      match goal with E : ps_tbl ?x = ps_tbl s |- _ => rewrite E end.
      destruct (ready_grows _ _ (proj2 O) R f Ef) as (nm & i & a & l & g & ->).
      destruct (tag_eq_dec g GVoid); [st|]. st. expr. st. ps.
    + do 2 st. destruct (tb_func (ps_tbl s)) eqn:Ef; [st|]. apply func_total; auto. lia.
    + repeat st. ps.
    + repeat st. ps.
    + do 2 st. destruct (tb_func (ps_tbl s)) eqn:Ef; [st|]. st; [|st]. do 2 st. apply use_total; auto. lia.
  - cbn [parse_block]. do 3 st; [st; ps|]. st. useS Hs. st. match goal with a : stmt |- _ => pose proof (snodes_pos a) end. useS Hb. st. ps.
Qed.

Lemma top_total n : forall T s, ok T s -> ready T -> 6 * left s + 5 <= n -> wp (parse_top n) s (ans T s snodes_all 0).
Proof.
  induction n as [|n IH]; intros T s O R F; [lia|]. cbn [parse_top]. do 2 st. destruct (stmts_total n) as [Hs _].
  destruct (tk (ps_tok s)) eqn:Ek.
  all: try (st; useS Hs; match goal with a : stmt |- _ => pose proof (snodes_pos a) end; st; useS IH; st; ps).
  - st. match goal with O : ok ?T ?s |- wp _ ?s _ => eapply wp_mono; [apply (struct_total n T s O Ek); lia|] end. intros _ s1 [O1 L1].
    useS IH. split; auto. lia.
  - st. ps.
Qed.
End Total.
