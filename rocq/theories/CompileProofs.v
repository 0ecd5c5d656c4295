From Verif Require Import Base Token Values Strings Code CodeSpec CodeProofs FileLine Syntax Symbols Compile Layout LayoutProofs.
Local Open Scope Z_scope.

(** ** Sequencing *)
Lemma cbind_ok {S A B} (m : S -> cres S A) (f : A -> S -> cres S B) s b s' :
  cbind m f s = COk b s' -> exists a s1, m s = COk a s1 /\ f a s1 = COk b s'.
Proof. unfold cbind. destruct (m s); try discriminate. eauto. Qed.

Lemma cret_ok {S A} (a b : A) (s s' : S) : cret a s = COk b s' -> b = a /\ s' = s.
Proof. intros [= <- <-]. auto. Qed.

Ltac inv_bind H :=
  let a := fresh "v" in let s := fresh "s" in let E := fresh "E" in
  apply cbind_ok in H; destruct H as (a & s & E & H).

(** ** What the emitters do to the program *)

(** [c'] continues [c] *)
Definition ext (c c' : program) : Prop := plen c <= plen c' /\ agree 0 (plen c) c c'.

Lemma ext_refl c : ext c c.
Proof. split; [lia|apply agree_refl]. Qed.
Lemma ext_trans a b c : ext a b -> ext b c -> ext a c.
Proof. intros (L1 & A1) (L2 & A2). split; [lia|]. eapply agree_trans; [eassumption|]. eapply agree_sub; [eassumption|lia|lia]. Qed.
Lemma ext_app c tl : ext c (c ++ tl).
Proof.
  split; [rewrite plen_app; pose proof (plen_nonneg tl); lia|]. intros i Hi. unfold byte_at.
  destruct (i <? 0); auto. unfold plen in Hi. rewrite nth_error_app1 by lia. reflexivity.
Qed.
Lemma ext_len c c' : ext c c' -> plen c <= plen c'.
Proof. intros X; apply X. Qed.

Lemma le_bytes_mod n : forall z, le_bytes n (z mod 256 ^ Z.of_nat n) = le_bytes n z.
Proof.
  induction n as [|n IH]; intros z; [reflexivity|]. cbn [le_bytes].
  rewrite Nat2Z.inj_succ, Z.pow_succ_r by lia. assert (0 < 256 ^ Z.of_nat n) by (apply Z.pow_pos_nonneg; lia).
  rewrite Z.rem_mul_r by lia. f_equal.
  - rewrite (Z.mul_comm 256), Z.mod_add by lia. apply Z.mod_mod. lia.
  - rewrite (Z.mul_comm 256), Z.div_add by lia. rewrite Z.div_small by (apply Z.mod_pos_bound; lia).
    apply IH.
Qed.

Lemma gen_norm c i : gen_instr c (norm i) = gen_instr c i.
Proof.
  assert (M4 : forall z, le_bytes 4 (z mod 2^32) = le_bytes 4 z) by (intros; apply (le_bytes_mod 4)).
  assert (M8 : forall z, le_bytes 8 (z mod 2^64) = le_bytes 8 z) by (intros; apply (le_bytes_mod 8)).
  destruct i; cbn [norm gen_instr]; try reflexivity; unfold gen_value; cbn [fst];
    try (rewrite M4; reflexivity); try (rewrite M8; reflexivity).
  rewrite <- (M8 (wrap64 i)), <- (M8 i). f_equal. f_equal. unfold wrap64.
  Z.to_euclidean_division_equations; lia.
Qed.

(** The operands that [norm] does not cut fit *)
Definition fits (i : instr) : Prop :=
  match i with
  | IPushNullN n | IPushChar n | IPushStringFF n | IPushStruct n
  | IStructGet n | IStructSet n | IGetLocalW n => is_byte n
  | ICall n _ | ICallF n _ => is_byte n
  | IPushString _ => False
  | _ => True
  end.

Lemma fits_codable i : fits i -> codable (norm i).
Proof.
  destruct i; cbn [fits norm codable]; try tauto; try (intros _; unfold is_index; apply Z.mod_pos_bound; lia).
  - intros _. unfold wrap64. pose proof (Z.mod_pos_bound (i + 2^63) (2^64)). lia.
  - intros F. split; [exact F|]. apply Z.mod_pos_bound; lia.
  - intros F. split; [exact F|]. apply Z.mod_pos_bound; lia.
Qed.

Lemma gen_at c i : fits i -> at_i (gen_instr c i) (plen c) i (plen (gen_instr c i)).
Proof.
  intros F. unfold at_i. rewrite <- (gen_norm c i). rewrite <- (app_nil_r (gen_instr c (norm i))) at 1.
  rewrite decode_gen by (apply fits_codable; exact F). reflexivity.
Qed.

Lemma gen_ext c i : ext c (gen_instr c i).
Proof. destruct (gen_instr_ext c i) as (tl & ->). apply ext_app. Qed.

(** *** Jumps *)
Lemma decode_jump (op : Z) (mk : Z -> instr) c a :
  (op = 33 /\ mk = IGoto) \/ (op = 34 /\ mk = IGotoz) -> byte_at c a = Ok op ->
  decode c a = match read_value_at 4 4 c (a + 1) with Ok (v, b) => Ok (mk v, b) | _ => UB end.
Proof. intros [(-> & ->)|(-> & ->)] E; unfold decode; rewrite E; reflexivity. Qed.

Lemma decode_jump_inv (op : Z) (mk : Z -> instr) c a k b :
  (op = 33 /\ mk = IGoto) \/ (op = 34 /\ mk = IGotoz) -> decode c a = Ok (mk k, b) ->
  byte_at c a = Ok op /\ b = align_up (a + 1) 4 + 4.
Proof.
  intros O E. unfold decode in E. destruct (byte_at c a) as [o| | |] eqn:E0; try discriminate.
  destruct O as [(-> & ->)|(-> & ->)]; split_decode E; injection E as E1 E2; try discriminate; subst;
    (split; [reflexivity|]); match goal with H : read_value_at _ _ _ _ = _ |- _ => unfold read_value_at in H;
      destruct (bytes_at _ _ _); try discriminate H; injection H as _ <-; lia end.
Qed.

Definition jump (mk : Z -> instr) (c : program) (a x b : Z) : Prop :=
  exists k, decode c a = Ok (mk k, b) /\ to_signed32 k = x.

Lemma to_signed32_id v : 0 <= v < 2^31 -> to_signed32 (v mod 2^32) = v.
Proof. intros R. rewrite Z.mod_small by lia. unfold to_signed32. destruct (Z.ltb_spec v (2^31)); lia. Qed.

(** Writing the operand of a jump *)
Lemma jump_patched op mk c C a x b v :
  (op = 33 /\ mk = IGoto) \/ (op = 34 /\ mk = IGotoz) ->
  jump mk c a x b -> agree a (b - 4) c C -> bytes_at C (b - 4) 4 = Ok (le_bytes 4 v) -> 0 <= v < 2^31 ->
  jump mk C a v b.
Proof.
  intros O (k & D & _) A B V. destruct (decode_jump_inv _ _ _ _ _ _ O D) as (E & Eb).
  pose proof (align4_ge (a + 1)). exists (v mod 2^32). split; [|apply to_signed32_id; auto].
  assert (E' : byte_at C a = Ok op) by (rewrite <- E; apply A; lia).
  rewrite (decode_jump _ _ _ _ O E'). unfold read_value_at.
  replace (b - 4) with (align_up (a + 1) 4) in B by lia. rewrite B, le_val_bytes. subst b. reflexivity.
Qed.

Lemma gen_jump_ok op mk dest s pos s' :
  (op = 33 /\ mk = IGoto) \/ (op = 34 /\ mk = IGotoz) -> gen_jump op dest s = COk pos s' ->
  s' = set_code s (k_code s') /\ ext (k_code s) (k_code s') /\
  plen (k_code s') = pos + 4 /\ plen (k_code s) < pos /\
  jump mk (k_code s') (plen (k_code s)) (to_signed32 (dest mod 2^32)) (plen (k_code s')).
Proof.
  intros O E. unfold gen_jump in E. inv_bind E. unfold emit in E0. injection E0 as <- <-.
  unfold emit_value in E. cbn [set_code k_code] in E.
  pose proof (gen_read 4 2 dest (gen_code (k_code s) op) [] ltac:(lia)) as G. change (2^2) with 4 in G.
  destruct (gen_value 4 4 dest (gen_code (k_code s) op)) as [c pos'] eqn:GV. injection E as <- <-.
  destruct G as ((G1 & _) & _ & G3 & _). unfold gen_code in G1. rewrite plen1 in G1. cbn [k_code set_code].
  split; [reflexivity|]. split.
  { destruct (gen_value_ext 4 4 dest (gen_code (k_code s) op)) as (tl & Et). rewrite GV in Et. cbn [fst] in Et.
    rewrite Et. unfold gen_code. rewrite <- app_assoc. apply ext_app. }
  split; [lia|]. split; [lia|]. exists (dest mod 2^32). split; [|reflexivity].
  assert (c = gen_instr (k_code s) (mk dest)) as ->.
  { destruct O as [(-> & ->)|(-> & ->)]; cbn [gen_instr]; rewrite GV; reflexivity. }
  pose proof (gen_at (k_code s) (mk dest)) as GA. unfold at_i in GA.
  destruct O as [(-> & ->)|(-> & ->)]; apply GA; exact I.
Qed.

Lemma put_bytes_spec bs : forall c n c', put_bytes c n bs = Ok c' ->
  length c' = length c /\ (bs = [] \/ (n + length bs <= length c)%nat) /\
  (forall i, (i < n \/ n + length bs <= i)%nat -> nth_error c' i = nth_error c i) /\
  (forall j b, nth_error bs j = Some b -> nth_error c' (n + j) = Some b).
Proof.
  induction bs as [|b bs IH]; intros c n c' E; cbn [put_bytes] in E.
  - injection E as <-. split; auto. split; auto. split; auto. intros [|j] b; discriminate.
  - destruct (Nat.ltb_spec n (length c)); try discriminate.
    assert (U : length (update c n b) = length c) by (rewrite update_length; lia).
    destruct (IH _ _ _ E) as (L & Q & N & F). rewrite U in *. split; [lia|].
    split; [right; cbn [length]; destruct Q as [->|Q]; cbn [length]; lia|]. split.
    + intros i Hi. cbn [length] in Hi. rewrite N by lia. apply nth_error_update_ne. lia.
    + intros [|j] b' Hb.
      * injection Hb as <-. rewrite Nat.add_0_r. rewrite N by lia. apply nth_error_update_eq. lia.
      * replace (n + S j)%nat with (S n + j)%nat by lia. apply F. exact Hb.
Qed.

Lemma bytes_at_put (c : program) : forall bs n, (forall j b, nth_error bs j = Some b -> nth_error c (n + j) = Some b) ->
  bytes_at c (Z.of_nat n) (length bs) = Ok bs.
Proof.
  induction bs as [|b bs IH]; intros n F; cbn [bytes_at length]; auto.
  unfold byte_at. destruct (Z.ltb_spec (Z.of_nat n) 0); [lia|]. rewrite Nat2Z.id.
  pose proof (F O b eq_refl) as F0. rewrite Nat.add_0_r in F0. rewrite F0. cbn [of_option].
  replace (Z.of_nat n + 1) with (Z.of_nat (S n)) by lia. rewrite IH; auto.
  intros j b' Hb. replace (S n + j)%nat with (n + S j)%nat by lia. apply F. exact Hb.
Qed.

Lemma patch_ok pos v s u s' : patch pos v s = COk u s' ->
  s' = set_code s (k_code s') /\ plen (k_code s') = plen (k_code s) /\ 0 <= pos /\ pos + 4 <= plen (k_code s) /\
  agree 0 pos (k_code s) (k_code s') /\ agree (pos + 4) (plen (k_code s)) (k_code s) (k_code s') /\
  bytes_at (k_code s') pos 4 = Ok (le_bytes 4 v).
Proof.
  unfold patch, gen_value_at, oassert, orequire.
  destruct (Z.rem pos 4 =? 0); [|discriminate]. destruct (Z.leb_spec 0 pos); [|discriminate].
  destruct (put_bytes _ _ _) as [c| | |] eqn:E; try discriminate. intros [= <- <-]. cbn [set_code k_code].
  destruct (put_bytes_spec _ _ _ _ E) as (L & Q & N & F). rewrite le_bytes_length in *.
  destruct Q as [Q|Q]; [discriminate|]. unfold plen. rewrite L. split; [reflexivity|]. split; [reflexivity|].
  split; [lia|]. split; [lia|].
  assert (A : forall i, 0 <= i -> i < pos \/ pos + 4 <= i -> byte_at c i = byte_at (k_code s) i).
  { intros i Hi Hd. unfold byte_at. destruct (i <? 0); auto. rewrite N by lia. reflexivity. }
  split; [intros i Hi; apply A; lia|]. split; [intros i Hi; apply A; lia|].
  pose proof (bytes_at_put c (le_bytes 4 v) (Z.to_nat pos) F) as B. rewrite Z2Nat.id in B by lia. exact B.
Qed.

(** ** The parts of the symbol table that code generation does not change *)
Definition erase_var (v : lvar) : lvar := mkLv (lv_name v) (lv_index v) (lv_scope v) (lv_ended v) false None.
Definition erase_body (b : symbody) : symbody :=
  match b with
  | SyGlobal i _ _ => SyGlobal i false None
  | SyFunc i args locals ret => SyFunc i (map erase_var args) (map erase_var locals) ret
  | _ => b
  end.
Definition erase (s : sym) : sym := mkSym (sy_id s) (sy_name s) (erase_body (sy_body s)).
Definition same_shape (t t' : tbl) : Prop :=
  map erase (tb_syms t) = map erase (tb_syms t') /\ tb_nglob t = tb_nglob t' /\ tb_nfun t = tb_nfun t' /\
  tb_nforeign t = tb_nforeign t' /\ tb_next t = tb_next t' /\ tb_func t = tb_func t'.

Lemma shape_refl t : same_shape t t.
Proof. repeat split. Qed.
Lemma shape_sym t t' : same_shape t t' -> same_shape t' t.
Proof. intros (A & B & C & D & E & F). repeat split; auto. Qed.
Lemma shape_trans a b c : same_shape a b -> same_shape b c -> same_shape a c.
Proof. intros (A & B & C & D & E & F) (A' & B' & C' & D' & E' & F'). repeat split; congruence. Qed.

Lemma find_map {A B} (f : A -> B) (p : A -> bool) (q : B -> bool) l :
  (forall x, q (f x) = p x) -> find q (map f l) = option_map f (find p l).
Proof. intros E. induction l as [|x l IH]; cbn; auto. rewrite E. destruct (p x); auto. Qed.

Lemma shape_find (p : sym -> bool) t t' : same_shape t t' -> (forall s, p (erase s) = p s) ->
  option_map erase (find p (tb_syms t)) = option_map erase (find p (tb_syms t')).
Proof.
  intros (E & _) Hp. rewrite <- (find_map erase p p) by auto. rewrite <- (find_map erase p p) by auto.
  rewrite E. reflexivity.
Qed.

Lemma shape_sym_at t t' id : same_shape t t' ->
  option_map erase (sym_at t id) = option_map erase (sym_at t' id).
Proof. intros E. apply shape_find; auto. Qed.

Lemma shape_reffun t t' f : same_shape t t' ->
  option_map erase (reference_function t f) = option_map erase (reference_function t' f).
Proof. intros E. apply shape_find; auto. intros [i n []]; reflexivity. Qed.

Lemma shape_gidx t t' id : same_shape t t' -> gidx t id = gidx t' id.
Proof.
  intros E. apply (shape_sym_at _ _ id) in E. unfold gidx.
  destruct (sym_at t id) as [[? ? []]|], (sym_at t' id) as [[? ? []]|]; cbn in E; try discriminate; auto; injection E; intros; subst; auto.
Qed.
Lemma shape_cval t t' id : same_shape t t' -> cval t id = cval t' id.
Proof.
  intros E. apply (shape_sym_at _ _ id) in E. unfold cval.
  destruct (sym_at t id) as [[? ? []]|], (sym_at t' id) as [[? ? []]|]; cbn in E; try discriminate; auto; injection E; intros; subst; auto.
Qed.
Lemma shape_sfields t t' id : same_shape t t' -> sfields t id = sfields t' id.
Proof.
  intros E. apply (shape_sym_at _ _ id) in E. unfold sfields.
  destruct (sym_at t id) as [[? ? []]|], (sym_at t' id) as [[? ? []]|]; cbn in E; try discriminate; auto;
    try (destruct defined; reflexivity); injection E; intros; subst; auto.
Qed.
Lemma shape_lidx t t' r : same_shape t t' -> lidx t r = lidx t' r.
Proof.
  intros E. unfold lidx.
  assert (M : forall l l' i, map erase_var l = map erase_var l' ->
    option_map lv_index (nth_error l i) = option_map lv_index (nth_error l' i)).
  { intros l l' i M. pose proof (map_nth_error erase_var i l) as A. pose proof (map_nth_error erase_var i l') as B.
    rewrite M in A. destruct (nth_error l i) as [v|] eqn:X.
    - specialize (A _ eq_refl). destruct (nth_error l' i) as [v'|] eqn:Y.
      + specialize (B _ eq_refl). rewrite A in B. injection B. cbn. congruence.
      + apply nth_error_None in Y. assert (nth_error (map erase_var l') i = None) as N
          by (apply nth_error_None; rewrite map_length; lia). congruence.
    - destruct (nth_error l' i) as [v'|] eqn:Y; auto. apply nth_error_None in X.
      assert (i < length l')%nat by (apply nth_error_Some; congruence).
      apply (f_equal (@length _)) in M. rewrite !map_length in M. lia. }
  destruct r as [id|id|f i|f i]; cbn [var_of]; auto; apply (shape_sym_at _ _ f) in E;
    destruct (sym_at t f) as [[? ? []]|], (sym_at t' f) as [[? ? []]|]; cbn in E; try discriminate; auto;
    injection E as _ _ _ E1 E2 _; apply M; assumption.
Qed.
Lemma shape_field_no t t' g f : same_shape t t' -> field_no t g f = field_no t' g f.
Proof.
  intros E. unfold field_no. destruct g; auto. apply (shape_sym_at _ _ id) in E.
  destruct (sym_at t id) as [[? ? []]|], (sym_at t' id) as [[? ? []]|]; cbn in E; try discriminate; auto; injection E; intros; subst; auto.
Qed.
Lemma erase_call_instr n y y' : erase y = erase y' -> call_instr n (sy_body y) = call_instr n (sy_body y').
Proof. destruct y as [? ? []], y' as [? ? []]; cbn; intros E; try discriminate; auto; injection E; intros; subst; auto. Qed.

(** ** Expressions *)
Definition only_code (s s' : kst) : Prop := s' = set_code s (k_code s').
Lemma only_refl s : only_code s s.
Proof. destruct s; reflexivity. Qed.
Lemma only_trans a b c : only_code a b -> only_code b c -> only_code a c.
Proof. unfold only_code. intros E1 E2. rewrite E2, E1. reflexivity. Qed.
Lemma only_tbl a b : only_code a b -> k_tbl b = k_tbl a.
Proof. intros ->. reflexivity. Qed.

Definition grows (s s' : kst) : Prop := only_code s s' /\ ext (k_code s) (k_code s').
Lemma grows_refl s : grows s s.
Proof. split; [apply only_refl|apply ext_refl]. Qed.
Lemma grows_trans a b c : grows a b -> grows b c -> grows a c.
Proof. intros (O1 & X1) (O2 & X2). split; [eapply only_trans; eauto|eapply ext_trans; eauto]. Qed.

Definition patched (pos v : Z) (s s' : kst) : Prop :=
  only_code s s' /\ plen (k_code s') = plen (k_code s) /\
  agree 0 pos (k_code s) (k_code s') /\ agree (pos + 4) (plen (k_code s)) (k_code s) (k_code s') /\
  bytes_at (k_code s') pos 4 = Ok (le_bytes 4 v).

Lemma patch_patched pos v s u s' : patch pos v s = COk u s' -> patched pos v s s'.
Proof. intros E. destruct (patch_ok _ _ _ _ _ E) as (A & B & C & D & F & G & I). repeat split; auto. Qed.

(** A patch behind [a] leaves what was before [a] *)
Lemma patched_grows pos v a s s' : patched pos v s s' -> plen (k_code a) <= pos -> grows a s -> grows a s'.
Proof.
  intros (O & L & A & _) P (O' & X). split; [eapply only_trans; eauto|]. split; [destruct X; lia|].
  eapply agree_trans; [apply X|]. eapply agree_sub; eauto. lia.
Qed.

Definition jumped (mk : Z -> instr) (dest : Z) (s : kst) (pos : Z) (s' : kst) : Prop :=
  grows s s' /\ plen (k_code s') = pos + 4 /\ plen (k_code s) < pos /\
  jump mk (k_code s') (plen (k_code s)) (to_signed32 (dest mod 2^32)) (plen (k_code s')).

Lemma goto_jumped dest s pos s' : gen_jump op_goto dest s = COk pos s' -> jumped IGoto dest s pos s'.
Proof.
  intros E. destruct (gen_jump_ok 33 IGoto dest s pos s') as (A & B & C & D & F); auto.
  repeat split; auto; apply B.
Qed.
Lemma gotoz_jumped dest s pos s' : gen_jump op_gotoz dest s = COk pos s' -> jumped IGotoz dest s pos s'.
Proof.
  intros E. destruct (gen_jump_ok 34 IGotoz dest s pos s') as (A & B & C & D & F); auto.
  repeat split; auto; apply B.
Qed.

Lemma here_ok s v s' : here s = COk v s' -> v = plen (k_code s) /\ s' = s.
Proof. intros [= <- <-]. auto. Qed.

(** Following the bytes of [a, b) through the states of a compilation *)
Ltac chain :=
  match goal with
  | |- agree _ _ ?c ?c => apply agree_refl
  | A : agree _ _ ?c ?d |- agree ?x ?y ?c ?C =>
      apply (agree_trans x y c d C); [apply (agree_sub _ _ _ _ _ _ A); lia|chain]
  end.

Section Expr.
Variable t0 : tbl.

Definition emits (m : km unit) (L : program -> Z -> Z -> Prop) : Prop :=
  forall s u s', same_shape t0 (k_tbl s) -> m s = COk u s' ->
    grows s s' /\ (plen (k_code s') < 2^31 -> L (k_code s') (plen (k_code s)) (plen (k_code s'))).

Lemma emit_i_ok i s u s' : emit_i i s = COk u s' -> s' = set_code s (gen_instr (k_code s) i).
Proof. unfold emit_i. generalize (gen_instr (k_code s) i). intros c [= _ <-]. reflexivity. Qed.

Lemma emits_i i : fits i -> emits (emit_i i) (fun C a b => at_i C a i b).
Proof.
  intros F s u s' _ E. apply emit_i_ok in E. subst s'. cbn [set_code k_code]. split; [|intros _; apply gen_at; auto].
  split; [reflexivity|apply gen_ext].
Qed.

Lemma emits_int z : emits (push_int z) (fun C a b => at_i C a (int_instr z) b).
Proof. unfold push_int, int_instr. destruct (z =? 0); [|destruct (z =? 1)]; apply emits_i; exact I. Qed.

Lemma emits_str i : emits (push_string i) (fun C a b => at_str C i a b).
Proof.
  unfold push_string. destruct (Z.leb_spec (Z.of_nat i) 255).
  - intros s u s' Sh E. destruct (emits_i (IPushStringFF (Z.of_nat i))) with (2 := Sh) (3 := E) as (G & L).
    { unfold fits, is_byte. lia. }
    split; auto. intros B. specialize (L B). split; auto. apply decode_range in L. lia.
  - intros s u s' _ E. apply emit_i_ok in E. subst s'. cbn [set_code k_code]. split; [split; [reflexivity|apply gen_ext]|].
    intros _. split; [|lia]. split; [apply plen_nonneg|]. cbn [gen_instr].
    pose proof (gen_read 4 2 (Z.of_nat i) (gen_code (k_code s) 9) [] ltac:(lia)) as G. change (2^2) with 4 in G.
    destruct (gen_value 4 4 (Z.of_nat i) (gen_code (k_code s) 9)) as [c pos] eqn:GV. cbn [fst].
    destruct G as ((G1 & _) & _ & G3 & _). unfold gen_code in G1. rewrite plen1 in G1. lia.
Qed.

Lemma emits_ref r : emits (get_ref r) (fun C a b => at_ref t0 C r a b).
Proof.
  intros s u s' Sh E. unfold get_ref in E. destruct r as [id|id|f i|f i]; cbn [at_ref].
  - destruct (sym_at (k_tbl s) id) as [[? ? []]|] eqn:Y; try discriminate.
    apply emits_i in E; auto; [|exact I]. destruct E as (G & L). split; auto. intros B. exists index.
    split; auto. rewrite (shape_gidx _ _ id Sh). unfold gidx. rewrite Y. reflexivity.
  - destruct (sym_at (k_tbl s) id) as [[? ? []]|] eqn:Y; try discriminate.
    assert (V : cval t0 id = Some c) by (rewrite (shape_cval _ _ id Sh); unfold cval; rewrite Y; reflexivity).
    destruct c.
    + apply emits_i in E; auto; [|destruct b; exact I]. destruct E as (G & L). split; [exact G|]. intros B. eexists. split; [exact V|]. exact (L B).
    + apply emits_int in E; auto. destruct E as (G & L). split; [exact G|]. intros B. eexists. split; [exact V|]. exact (L B).
    + apply emits_i in E; auto; [|exact I]. destruct E as (G & L). split; [exact G|]. intros B. eexists. split; [exact V|]. exact (L B).
    + apply emits_str in E; auto. destruct E as (G & L). split; [exact G|]. intros B. eexists. split; [exact V|]. exact (L B).
  - destruct (var_of (k_tbl s) (RLocal f i)) as [v|] eqn:Y; try discriminate.
    assert (V : lidx t0 (RLocal f i) = Some (lv_index v)) by (rewrite (shape_lidx _ _ _ Sh); unfold lidx; rewrite Y; reflexivity).
    destruct ((lv_index v <? 0) || (255 <? lv_index v)) eqn:R.
    + apply emits_i in E; auto; [|exact I]. destruct E as (G & L). split; auto. intros B. exists (lv_index v). rewrite R. auto.
    + apply emits_i in E; auto. 2:{ apply Bool.orb_false_iff in R. unfold fits, is_byte. lia. }
      destruct E as (G & L). split; auto. intros B. exists (lv_index v). rewrite R. auto.
  - destruct (var_of (k_tbl s) (RArg f i)) as [v|] eqn:Y; try discriminate.
    assert (V : lidx t0 (RArg f i) = Some (lv_index v)) by (rewrite (shape_lidx _ _ _ Sh); unfold lidx; rewrite Y; reflexivity).
    destruct ((lv_index v <? 0) || (255 <? lv_index v)) eqn:R.
    + apply emits_i in E; auto; [|exact I]. destruct E as (G & L). split; auto. intros B. exists (lv_index v). rewrite R. auto.
    + apply emits_i in E; auto. 2:{ apply Bool.orb_false_iff in R. unfold fits, is_byte. lia. }
      destruct E as (G & L). split; auto. intros B. exists (lv_index v). rewrite R. auto.
Qed.

Lemma emits_set r : emits (set_ref r) (fun C a b => at_set t0 C r a b).
Proof.
  intros s u s' Sh E. unfold set_ref in E. destruct r as [id|id|f i|f i]; cbn [at_set]; try discriminate.
  - destruct (sym_at (k_tbl s) id) as [[? ? []]|] eqn:Y; try discriminate.
    apply emits_i in E; auto; [|exact I]. destruct E as (G & L). split; auto. intros B. exists index.
    split; auto. rewrite (shape_gidx _ _ id Sh). unfold gidx. rewrite Y. reflexivity.
  - destruct (var_of (k_tbl s) (RLocal f i)) as [v|] eqn:Y; try discriminate.
    assert (V : lidx t0 (RLocal f i) = Some (lv_index v)) by (rewrite (shape_lidx _ _ _ Sh); unfold lidx; rewrite Y; reflexivity).
    apply emits_i in E; auto; [|exact I]. destruct E as (G & L). split; [exact G|]. intros B. eexists. split; [exact V|]. exact (L B).
  - destruct (var_of (k_tbl s) (RArg f i)) as [v|] eqn:Y; try discriminate.
    assert (V : lidx t0 (RArg f i) = Some (lv_index v)) by (rewrite (shape_lidx _ _ _ Sh); unfold lidx; rewrite Y; reflexivity).
    apply emits_i in E; auto; [|exact I]. destruct E as (G & L). split; [exact G|]. intros B. eexists. split; [exact V|]. exact (L B).
Qed.

Lemma emits_call_sym n y (y0 : option sym) : is_byte n -> (exists z, y0 = Some z /\ erase z = erase y) ->
  emits (call_sym n (sy_body y)) (fun C a b => at_call C n y0 a b).
Proof.
  intros N (z & -> & Ez) s u s' Sh E. apply (erase_call_instr n) in Ez.
  assert (C0 : forall i, call_instr n (sy_body y) = Some i -> emit_i i s = COk u s' ->
    grows s s' /\ (plen (k_code s') < 2 ^ 31 ->
      at_call (k_code s') n (Some z) (plen (k_code s)) (plen (k_code s')))).
  { intros i Hi E'. apply emits_i in E'; auto.
    - destruct E' as (G & L). split; auto. intros B. exists z, i. rewrite Ez. auto.
    - unfold call_instr in Hi. destruct (sy_body y); try discriminate; [|destruct (arity_ok _ _ _); [|discriminate]]; injection Hi as <-; exact N. }
  unfold call_sym in E. destruct (sy_body y) eqn:Y; try discriminate.
  - eapply C0; [reflexivity|exact E].
  - inv_bind E. injection E0 as _ <-.
    destruct (negb _ && negb _) eqn:Ar in E; [discriminate|].
    eapply C0; [cbn [call_instr]; unfold arity_ok; apply andb_false_iff in Ar; rewrite !negb_false_iff in Ar; destruct Ar as [-> | ->]; rewrite ?orb_true_r; reflexivity|]. inv_bind E. injection E0 as _ <-. inv_bind E. injection E as <- <-.
    unfold emit_value in E0. unfold emit_i. cbn [gen_instr]. cbn [set_code k_code] in E0.
    destruct (gen_value 4 4 (Z.of_nat index) (gen_code (gen_code (k_code s) 38) n)) as [c pos].
    injection E0 as <- <-. cbn [fst]. reflexivity.
Qed.

Lemma emits_call_id n id : is_byte n -> emits (call_id n id) (fun C a b => at_call C n (sym_at t0 id) a b).
Proof.
  intros N s u s' Sh E. unfold call_id in E. destruct (sym_at (k_tbl s) id) as [y|] eqn:Y; try discriminate.
  eapply emits_call_sym in E; eauto. pose proof (shape_sym_at _ _ id Sh) as Q. rewrite Y in Q.
  destruct (sym_at t0 id); try discriminate. injection Q as Q1 Q2 Q3. eexists. split; [reflexivity|].
  unfold erase. congruence.
Qed.

Lemma emits_reffun n f : is_byte n ->
  emits (fun s => match reference_function (k_tbl s) f with
                | Some y => call_sym n (sy_body y) s
                | None => CFail s
                end) (fun C a b => at_call C n (reference_function t0 f) a b).
Proof.
  intros N s u s' Sh E. destruct (reference_function (k_tbl s) f) as [y|] eqn:Y; try discriminate.
  eapply emits_call_sym in E; eauto. pose proof (shape_reffun _ _ f Sh) as Q. rewrite Y in Q.
  destruct (reference_function t0 f); try discriminate. injection Q as Q1 Q2 Q3. eexists. split; [reflexivity|].
  unfold erase. congruence.
Qed.

Lemma need_field_ok g f s k s' : same_shape t0 (k_tbl s) -> need_field g f s = COk k s' ->
  s' = s /\ field_no t0 g f = Some k /\ is_byte k.
Proof.
  intros Sh E. unfold need_field in E. destruct (field_no (k_tbl s) g f) as [i|] eqn:F; try discriminate.
  destruct (Z.leb_spec i 255); try discriminate. injection E as <- <-. rewrite (shape_field_no _ _ _ _ Sh).
  split; auto. split; auto. unfold field_no in F. destruct g; try discriminate.
  destruct (sym_at (k_tbl s) id) as [[? ? []]|]; try discriminate. destruct (field_index fields f) as [[j ?]|]; try discriminate.
  injection F as <-. unfold is_byte. lia.
Qed.

Definition mono (L : program -> Z -> Z -> Prop) : Prop :=
  forall c C a b, L c a b -> agree a b c C -> L C a b.

Lemma emits_weaken m (L L' : program -> Z -> Z -> Prop) : emits m L -> (forall C a b, L C a b -> L' C a b) -> emits m L'.
Proof. intros E W s u s' Sh X. destruct (E s u s' Sh X) as (G & Q). split; auto. Qed.

Lemma emits_seq m1 m2 L1 L2 : emits m1 L1 -> emits m2 L2 -> mono L1 ->
  emits (cbind m1 (fun _ => m2)) (fun C a b => exists m, L1 C a m /\ L2 C m b).
Proof.
  intros E1 E2 M s u s' Sh X. inv_bind X. destruct (E1 _ _ _ Sh E) as (G1 & Q1).
  assert (Sh1 : same_shape t0 (k_tbl s0)) by (rewrite (only_tbl _ _ (proj1 G1)); exact Sh).
  destruct (E2 _ _ _ Sh1 X) as (G2 & Q2). split; [eapply grows_trans; eauto|]. intros B.
  pose proof (ext_len _ _ (proj2 G2)). exists (plen (k_code s0)). split; [|auto].
  eapply M; [apply Q1; lia|]. eapply agree_sub; [apply G2| |lia]. apply plen_nonneg.
Qed.

Lemma mono_seq (L1 L2 : program -> Z -> Z -> Prop) : mono L1 -> mono L2 ->
  (forall C a b, L1 C a b -> a <= b) -> (forall C a b, L2 C a b -> a <= b) ->
  mono (fun C a b => exists m, L1 C a m /\ L2 C m b).
Proof.
  intros M1 M2 R1 R2 c C a b (m & A & B) G. pose proof (R1 _ _ _ A). pose proof (R2 _ _ _ B).
  exists m. split; [eapply M1|eapply M2]; eauto; eapply agree_sub; eauto; lia.
Qed.

Lemma mono_lay e : mono (fun C => lay t0 C e).
Proof. intros c C a b. apply lay_agree. Qed.
Lemma mono_at i : mono (fun C a b => at_i C a i b).
Proof. intros c C a b. apply at_agree. Qed.
Lemma mono_call n y : mono (fun C a b => at_call C n y a b).
Proof. intros c C a b. apply call_agree. Qed.
Lemma mono_set r : mono (fun C a b => at_set t0 C r a b).
Proof. intros c C a b. apply set_agree. Qed.
Hint Resolve mono_lay mono_at mono_call mono_set : core.

Definition eseq := map (fun e => (fun C => lay t0 C e)).

Lemma emits_args es : Forall (fun e => emits (compile_expr e) (fun C => lay t0 C e)) es ->
  forall i s n s', same_shape t0 (k_tbl s) -> seq_args i (map compile_expr es) s = COk n s' -> i <= 255 ->
    n = i + Z.of_nat (length es) /\ n <= 255 /\ grows s s' /\
    (plen (k_code s') < 2^31 -> lay_seq (map (lay t0 (k_code s')) es) (plen (k_code s)) (plen (k_code s'))).
Proof.
  induction 1 as [|e es He F IH]; intros i s n s' Sh E Hi; cbn [map seq_args] in E.
  - injection E as <- <-. cbn. split; [lia|]. split; [auto|]. split; [apply grows_refl|auto].
  - destruct (Z.leb_spec 255 i); [discriminate|]. inv_bind E. destruct (He _ _ _ Sh E0) as (G1 & Q1).
    assert (Sh1 : same_shape t0 (k_tbl s0)) by (rewrite (only_tbl _ _ (proj1 G1)); exact Sh).
    destruct (IH _ _ _ _ Sh1 E) as (A & B & G2 & Q2); [lia|]. cbn [length]. split; [lia|]. split; [auto|].
    split; [eapply grows_trans; eauto|]. intros Bd. pose proof (ext_len _ _ (proj2 G2)).
    exists (plen (k_code s0)). split; [|auto]. eapply lay_agree; [apply Q1; lia|].
    eapply agree_sub; [apply G2| |lia]. apply plen_nonneg.
Qed.

Lemma emits_all es : Forall (fun e => emits (compile_expr e) (fun C => lay t0 C e)) es ->
  emits (seq_all (map compile_expr es)) (fun C => lay_seq (map (lay t0 C) es)).
Proof.
  induction 1 as [|e es He F IH]; cbn [map seq_all].
  - intros s u s' Sh X. apply cret_ok in X. destruct X as (_ & ->). split; [apply grows_refl|reflexivity].
  - eapply emits_weaken; [apply emits_seq; eauto|]. cbn [lay_seq]. auto.
Qed.

Lemma emits_pick f es : Forall (fun e => emits (compile_expr e) (fun C => lay t0 C e)) es ->
  forall names, emits (pick f names (map compile_expr es)) (fun C => lay_pick f names (map (lay t0 C) es)).
Proof.
  induction 1 as [|e es He F IH]; intros names; cbn [map pick].
  - intros s u s' Sh X. replace (pick f names []) with (@cret kst unit tt) in X by (destruct names; reflexivity). apply cret_ok in X. destruct X as (_ & ->). split; [apply grows_refl|]. destruct names; reflexivity.
  - destruct names as [|nm names]; [intros s u s' _; discriminate|]. cbn [pick lay_pick].
    destruct (text_eqb nm f); [exact He|apply IH].
Qed.

Lemma mono_pick f names es : mono (fun C => lay_pick f names (map (lay t0 C) es)).
Proof.
  intros c C a b L. assert (F : Forall2 (moves c C) (map (lay t0 c) es) (map (lay t0 C) es)).
  { clear L. induction es; cbn [map]; constructor; [apply lay_moves|auto]. }
  apply (pick_move _ _ _ _ _ _ F _ _ L).
Qed.

Lemma emits_fields names es : Forall (fun e => emits (compile_expr e) (fun C => lay t0 C e)) es ->
  forall fs, emits (by_field fs names (map compile_expr es)) (fun C => lay_fields fs names (map (lay t0 C) es)).
Proof.
  intros F. induction fs as [|f fs IH]; cbn [by_field lay_fields].
  - intros s u s' Sh X. apply cret_ok in X. destruct X as (_ & ->). split; [apply grows_refl|reflexivity].
  - eapply emits_weaken; [apply emits_seq; [apply emits_pick; exact F|exact IH|apply mono_pick]|]. auto.
Qed.

(** Steps of a straight-line proof: every compile step adds a [grows], every
    patch what it changes. *)
Ltac shape := match goal with
  | Sh : same_shape t0 (k_tbl ?a) |- same_shape t0 (k_tbl ?a) => exact Sh
  | G : grows ?a ?b |- same_shape t0 (k_tbl ?b) => rewrite (only_tbl _ _ (proj1 G)); shape
  | G : patched _ _ ?a ?b |- same_shape t0 (k_tbl ?b) => rewrite (only_tbl _ _ (proj1 G)); shape
  end.

Lemma emits_jump2 (m1 m2 m3 : km unit) (L1 L2 L3 : program -> Z -> Z -> Prop) :
  emits m1 L1 -> emits m2 L2 -> emits m3 L3 -> mono L1 -> mono L2 -> mono L3 ->
  (forall C a b, L2 C a b -> a <= b) -> (forall C a b, L3 C a b -> a <= b) ->
  emits (cbind m1 (fun _ => cbind (gen_jump op_gotoz 0) (fun sc => cbind m2 (fun _ =>
         cbind (gen_jump op_goto 0) (fun ex => cbind here (fun h => cbind (patch sc h) (fun _ =>
         cbind m3 (fun _ => cbind here (fun h' => patch ex h')))))))))
    (fun C a b => exists m1 m2 m3 m4, L1 C a m1 /\ jz C m1 m4 m2 /\ L2 C m2 m3 /\ jmp C m3 b m4 /\ L3 C m4 b).
Proof.
  intros H1 H2 H3 M1 M2 M3 R2 R3 s u s' Sh X.
  inv_bind X. rename s0 into s1, v into u1. inv_bind X. rename s0 into s2, v into sc.
  inv_bind X. rename s0 into s3, v into u3. inv_bind X. rename s0 into s4, v into ex.
  inv_bind X. apply here_ok in E3. destruct E3 as (-> & ->). inv_bind X. rename s0 into s5, v into u5.
  inv_bind X. rename s0 into s6, v into u6. inv_bind X. apply here_ok in E5. destruct E5 as (-> & ->).
  destruct (H1 _ _ _ Sh E) as (G1 & Q1). apply gotoz_jumped in E0. destruct E0 as (G2 & P2 & P2' & J2).
  assert (Sh2 : same_shape t0 (k_tbl s2)) by shape. destruct (H2 _ _ _ Sh2 E1) as (G3 & Q3).
  apply goto_jumped in E2. destruct E2 as (G4 & P4 & P4' & J4). apply patch_patched in E3.
  assert (Sh5 : same_shape t0 (k_tbl s5)) by shape. destruct (H3 _ _ _ Sh5 E4) as (G6 & Q6).
  apply patch_patched in X.
  pose proof (ext_len _ _ (proj2 G1)). pose proof (ext_len _ _ (proj2 G2)). pose proof (ext_len _ _ (proj2 G3)).
  pose proof (ext_len _ _ (proj2 G4)). pose proof (ext_len _ _ (proj2 G6)).
  pose proof (plen_nonneg (k_code s)).
  assert (G5 : grows s s5).
  { eapply patched_grows; eauto; [lia|]. eauto using grows_trans. }
  assert (Gs : grows s s'). { eapply patched_grows; eauto; [lia|]. eauto using grows_trans. }
  split; [exact Gs|]. intros B.
  destruct E3 as (_ & L5 & A5 & A5' & B5). destruct X as (_ & L7 & A7 & A7' & B7).
  destruct G1 as (_ & _ & A1), G2 as (_ & _ & A2), G3 as (_ & _ & A3), G4 as (_ & _ & A4), G6 as (_ & _ & A6).
  clear Gs G5.
  exists (plen (k_code s1)), (plen (k_code s2)), (plen (k_code s3)), (plen (k_code s4)).
  split; [eapply M1; [apply Q1; lia|chain]|]. split.
  { apply (jump_patched 34 IGotoz (k_code s2) _ _ _ _ _ (or_intror (conj eq_refl eq_refl)) J2); [chain| |lia].
    replace (plen (k_code s2) - 4) with sc by lia. eapply bytes_agree; [exact B5|].
    change (Z.of_nat 4) with 4. chain. }
  split; [eapply M2; [apply Q3; lia|chain]|]. split.
  { apply (jump_patched 33 IGoto (k_code s4) _ _ _ _ _ (or_introl (conj eq_refl eq_refl)) J4); [chain| |lia].
    replace (plen (k_code s4) - 4) with ex by lia. rewrite L7. exact B7. }
  rewrite <- L5, L7. eapply M3; [apply Q6; lia|chain].
Qed.

Lemma lay_le e : forall C a b, lay t0 C e a b -> a <= b.
Proof. intros C a b L. apply lay_range in L. lia. Qed.
Lemma at_le i : forall C a b, at_i C a i b -> a <= b.
Proof. intros C a b L. apply at_range in L. lia. Qed.
Hint Resolve lay_le at_le : core.

Lemma emits_bin o i one ml mr l r : emits ml (fun C => lay t0 C l) -> emits mr (fun C => lay t0 C r) ->
  fits i ->
  emits (cbind ml (fun _ => if one : bool then emit_i i else cbind mr (fun _ => emit_i (IBin o))))
    (fun C => lay_bin C o i one (lay t0 C l) (lay t0 C r)).
Proof.
  intros H1 H2 F. destruct one.
  - eapply emits_weaken; [apply emits_seq; [exact H1|apply emits_i; exact F|auto]|]. auto.
  - eapply emits_weaken.
    + apply emits_seq; [exact H1| |auto]. apply emits_seq; [exact H2|apply emits_i; exact I|auto].
    + intros C a b (m & L1 & m' & L2 & L3). exists m. split; auto. exists m'. auto.
Qed.

Lemma emits_bin0 o i ml mr l r : emits ml (fun C => lay t0 C l) -> emits mr (fun C => lay t0 C r) ->
  emits (cbind ml (fun _ => cbind mr (fun _ => emit_i (IBin o))))
    (fun C => lay_bin C o i false (lay t0 C l) (lay t0 C r)).
Proof.
  intros H1 H2. eapply emits_weaken.
  + apply emits_seq; [exact H1| |auto]. apply emits_seq; [exact H2|apply emits_i; exact I|auto].
  + intros C a b (m & L1 & m' & L2 & L3). exists m. split; auto. exists m'. auto.
Qed.

Lemma is_byte_small z : 0 <= z <= 255 -> is_byte z.
Proof. unfold is_byte. lia. Qed.

Lemma emits_call f args : Forall (fun e => emits (compile_expr e) (fun C => lay t0 C e)) args ->
  emits (compile_call f args) (fun C => lay_call t0 C f args).
Proof.
  intros F s u s' Sh E. unfold compile_call in E. inv_bind E.
  destruct (emits_args _ F _ _ _ _ Sh E0 ltac:(lia)) as (En & Bn & G1 & Q1). cbn in En.
  assert (Sh1 : same_shape t0 (k_tbl s0)) by shape.
  destruct (emits_reffun v f ltac:(apply is_byte_small; lia) _ _ _ Sh1 E) as (G2 & Q2).
  split; [eapply grows_trans; eauto|]. intros B. pose proof (ext_len _ _ (proj2 G2)).
  exists (plen (k_code s0)). split.
  - eapply lay_seq_agree; [apply Q1; lia|]. eapply agree_sub; [apply G2|apply plen_nonneg|lia].
  - replace (Z.of_nat (length args)) with v by lia. auto.
Qed.

Lemma compile_expr_ok e : emits (compile_expr e) (fun C => lay t0 C e).
Proof.
  induction e using texpr_ind'; cbn [compile_expr].
  - apply emits_i; exact I.
  - apply emits_i; destruct b; exact I.
  - apply emits_int.
  - apply emits_int.
  - apply emits_i; exact I.
  - apply emits_str.
  - apply emits_ref.
  - (* call *)
    eapply emits_weaken with (L := fun C a b => exists m, lay_call t0 C f args a m /\ at_i C m IGetRetval b).
    + change (emits (fun s => cbind (seq_args 0 (map compile_expr args)) (fun n => cbind (fun s =>
        match reference_function (k_tbl s) f with Some y => call_sym n (sy_body y) s | None => CFail s end)
        (fun _ => emit_i IGetRetval)) s) (fun C a b => exists m, lay_call t0 C f args a m /\ at_i C m IGetRetval b)).
      intros s u s' Sh E. apply (emits_seq (compile_call f args) (emit_i IGetRetval) (fun C => lay_call t0 C f args)
        (fun C a b => at_i C a IGetRetval b)) with (u := u); auto.
      * apply emits_call; auto.
      * apply emits_i; exact I.
      * intros c C a b. apply lay_call_agree.
      * unfold compile_call. rewrite <- E. unfold cbind. destruct (seq_args 0 (map compile_expr args) s); reflexivity.
    + intros C a b (m & (m' & L1 & L2) & L3). exists m', m. auto.
  - (* binary *)
    destruct o; try (apply emits_bin0; assumption); try (apply emits_bin; auto; exact I).
    + eapply emits_weaken; [apply emits_seq; [eassumption|apply emits_seq; [eassumption|apply emits_i; exact I|auto]|auto]|].
      intros C a b (m & L1 & m' & L2 & L3). exists m, m'. auto.
    + eapply emits_weaken.
      * apply emits_seq; [eassumption| |auto]. apply emits_seq; [eassumption| |auto].
        apply emits_seq; [apply emits_i; exact I|apply emits_i; exact I|auto].
      * intros C a b (m & L1 & m' & L2 & m'' & L3 & L4). exists m, m', m''. auto.
    + eapply emits_weaken.
      * apply emits_jump2 with (L3 := fun C a b => at_i C a IPushFalse b).
        -- exact IHe1. -- exact IHe2. -- apply emits_i; exact I. -- apply mono_lay. -- apply mono_lay. -- apply mono_at.
        -- apply lay_le. -- apply at_le.
      * intros C a b L; exact L.
    + eapply emits_weaken.
      * apply emits_jump2 with (L2 := fun C a b => at_i C a IPushTrue b).
        -- exact IHe1. -- apply emits_i; exact I. -- exact IHe2. -- apply mono_lay. -- apply mono_at. -- apply mono_lay.
        -- apply at_le. -- apply lay_le.
      * intros C a b L; exact L.
  - (* unary *)
    destruct o.
    + assert (G : emits (cbind (compile_expr e) (fun _ => cbind (emit_i (IPushInt (-1))) (fun _ => emit_i (IBin OMul))))
        (fun C a b => exists m1 m2, lay t0 C e a m1 /\ at_i C m1 (IPushInt (-1)) m2 /\ at_i C m2 (IBin OMul) b)).
      { eapply emits_weaken.
        - apply emits_seq; [eassumption| |auto]. apply emits_seq; [apply emits_i; exact I|apply emits_i; exact I|auto].
        - intros C a b (m & L1 & m' & L2 & L3). exists m, m'. auto. }
      destruct e; try exact G. destruct (z =? - 2^31); [intros s u s' _; discriminate|]. apply emits_i; exact I.
    + eapply emits_weaken; [apply emits_seq; [eassumption|apply emits_i; exact I|auto]|]. auto.
  - exact IHe.
  - (* constructor *)
    intros s u s' Sh E. destruct (sym_at (k_tbl s) t) as [[? ? []]|] eqn:Y; try discriminate.
    destruct defined; try discriminate.
    assert (Fs : sfields t0 t = Some fields) by (rewrite (shape_sfields _ _ _ Sh); unfold sfields; rewrite Y; reflexivity).
    assert (Fb : is_byte (Z.of_nat (length fields) mod 256)) by (apply Z.mod_pos_bound; lia).
    destruct ns as [|n0 ns].
    + apply (emits_seq _ _ (fun C => lay_seq (map (lay t0 C) args))
        (fun C a b => at_i C a (IPushStruct (Z.of_nat (length fields) mod 256)) b)) in E; auto.
      * destruct E as (G & Q). split; auto. intros B. destruct (Q B) as (m & L1 & L2). exists fields, m. auto.
      * apply emits_all; auto.
      * apply emits_i. exact Fb.
      * intros c C a b. apply lay_seq_agree.
    + apply (emits_seq _ _ (fun C => lay_fields fields (n0 :: ns) (map (lay t0 C) args))
        (fun C a b => at_i C a (IPushStruct (Z.of_nat (length fields) mod 256)) b)) in E; auto.
      * destruct E as (G & Q). split; auto. intros B. destruct (Q B) as (m & L1 & L2). exists fields, m. auto.
      * apply emits_fields; auto.
      * apply emits_i. exact Fb.
      * intros c C a b L. assert (F : Forall2 (moves c C) (map (lay t0 c) args) (map (lay t0 C) args)).
        { clear. induction args; cbn [map]; constructor; [apply lay_moves|auto]. }
        apply (fields_move _ _ _ _ _ _ F _ _ L).
  - exact IHe.
  - (* field *)
    intros s u s' Sh E. inv_bind E. destruct (need_field_ok _ _ _ _ _ Sh E0) as (-> & Fn & Fb).
    apply (emits_seq _ _ (fun C => lay t0 C e) (fun C a b => at_i C a (IStructGet v) b)) in E; auto.
    + destruct E as (G & Q). split; auto. intros B. destruct (Q B) as (m & L1 & L2). exists m, v. auto.
    + apply emits_i. exact Fb.
  - (* index *)
    eapply emits_weaken.
    + apply emits_seq; [eassumption| |auto]. apply emits_seq; [eassumption| |auto].
      apply emits_seq; [apply emits_call_id; apply is_byte_small; lia|apply emits_i; exact I|auto].
    + intros C a b (m & L1 & m' & L2 & m'' & L3 & L4). exists m, m', m''. auto.
  - apply emits_jump2; [assumption|assumption|assumption|apply mono_lay|apply mono_lay|apply mono_lay|apply lay_le|apply lay_le].
Qed.

Lemma compile_call_ok f args : emits (compile_call f args) (fun C => lay_call t0 C f args).
Proof. apply emits_call. apply Forall_forall. intros e _. apply compile_expr_ok. Qed.

Lemma compile_rhs_ok op l r : emits (compile_rhs op l r) (fun C => lay_rhs t0 C op l r).
Proof.
  unfold compile_rhs, lay_rhs. pose proof (compile_expr_ok l). pose proof (compile_expr_ok r).
  destruct (compound_op op) as [[]|]; auto; try (apply emits_bin; auto; exact I); apply emits_bin0; auto.
Qed.
End Expr.

(** ** Statements *)
Definition findex (t : tbl) (f : nat) : option nat :=
  match sym_at t f with Some (mkSym _ _ (SyFunc i _ _ _)) => Some i | _ => None end.

Lemma shape_findex t t' f : same_shape t t' -> findex t f = findex t' f.
Proof.
  intros E. apply (shape_sym_at _ _ f) in E. unfold findex.
  destruct (sym_at t f) as [[? ? []]|], (sym_at t' f) as [[? ? []]|]; cbn in E; try discriminate; auto; injection E; intros; subst; auto.
Qed.

(** Pending operands, in order and apart from each other *)
Fixpoint ordered (a b : Z) (p : list (bool * Z)) : Prop :=
  match p with
  | [] => a <= b
  | (_, pos) :: p' => a <= pos /\ ordered (pos + 4) b p'
  end.

Lemma ordered_le p : forall a b, ordered a b p -> a <= b.
Proof. induction p as [|[k pos] p IH]; intros a b; cbn [ordered]; auto. intros (L & O). apply IH in O. lia. Qed.
Lemma ordered_app p : forall q a m b, ordered a m p -> ordered m b q -> ordered a b (p ++ q).
Proof.
  induction p as [|[k pos] p IH]; intros q a m b; cbn [ordered app].
  - intros L O. destruct q as [|[k pos] q]; cbn [ordered] in *; [lia|]. destruct O. split; auto. lia.
  - intros (L & O) O2. split; auto. eapply IH; eauto.
Qed.
Lemma ordered_sub p : forall a b a' b', ordered a b p -> a' <= a -> b <= b' -> ordered a' b' p.
Proof.
  induction p as [|[k pos] p IH]; intros a b a' b'; cbn [ordered]; [lia|].
  intros (L & O) L1 L2. split; [lia|]. eapply IH; eauto. lia.
Qed.
Lemma ordered_within p : forall a b, ordered a b p -> within a b p.
Proof.
  induction p as [|[k pos] p IH]; intros a b; cbn [ordered]; [intros _; apply within_nil|].
  intros (L & O). pose proof (ordered_le _ _ _ O). intros k' pos' [E|Hi]; [injection E as <- <-; lia|].
  apply IH in O. apply O in Hi. lia.
Qed.

Lemma patch_all_ok brk cont : forall p a b s u s', patch_all p brk cont s = COk u s' -> ordered a b p ->
  0 <= a -> b <= plen (k_code s) ->
  only_code s s' /\ plen (k_code s') = plen (k_code s) /\
  agree 0 a (k_code s) (k_code s') /\ agree b (plen (k_code s)) (k_code s) (k_code s') /\
  untouched a b p (k_code s) (k_code s') /\
  forall k pos, In (k, pos) p -> bytes_at (k_code s') pos 4 = Ok (le_bytes 4 (if k : bool then brk else cont)).
Proof.
  induction p as [|[k pos] p IH]; intros a b s u s' E O Ha Hb; cbn [patch_all ordered] in *.
  - apply cret_ok in E. destruct E as (_ & ->). split; [apply only_refl|]. do 3 (split; [auto using agree_refl|]).
    split; [apply agree_untouched, agree_refl|]. intros k pos [].
  - inv_bind E. apply patch_patched in E0. destruct E0 as (O1 & L1 & A1 & A1' & B1). destruct O as (La & O).
    pose proof (ordered_le _ _ _ O). destruct (IH (pos + 4) b _ _ _ E O) as (O2 & L2 & A2 & A2' & U2 & B2); [lia|lia|].
    split; [eapply only_trans; eauto|]. split; [lia|].
    split. { eapply agree_trans; [eapply agree_sub; [exact A1|lia|lia]|eapply agree_sub; [exact A2|lia|lia]]. }
    split. { eapply agree_trans; [eapply agree_sub; [exact A1'|lia|lia]|eapply agree_sub; [exact A2'|lia|lia]]. }
    split.
    + intros i Hi Hp. assert (~ (pos <= i < pos + 4)) by (apply (Hp k); left; reflexivity).
      assert (i < pos \/ pos + 4 <= i) as [Hl|Hg] by lia.
      * rewrite (A2 i) by lia. apply A1. lia.
      * rewrite (U2 i); [apply A1'; lia|lia|]. intros k' pos' Hk. apply (Hp k'). right. exact Hk.
    + intros k' pos' [Eq|Hk].
      * injection Eq as <- <-. eapply bytes_agree; [exact B1|]. change (Z.of_nat 4) with 4.
        eapply agree_sub; [exact A2|lia|lia].
      * apply (B2 k'). exact Hk.
Qed.

Section Stmt.
Variable t0 : tbl.

Definition ids (s : tstmt) : list (option nat) := map (fun b => findex t0 (fst b)) (bodies s).
Definition entry (s : kst) (f : nat) (m : Z) : Prop :=
  exists i, findex t0 f = Some i /\ nth_error (k_fpcs s) i = Some (Some m).

(** Strings are only added *)
Definition longer (s s' : kst) : Prop := exists x, tb_strings (k_tbl s') = tb_strings (k_tbl s) ++ x.
Lemma longer_refl s s' : tb_strings (k_tbl s') = tb_strings (k_tbl s) -> longer s s'.
Proof. unfold longer. intros ->. exists []. rewrite app_nil_r. reflexivity. Qed.
Lemma longer_trans a b c : longer a b -> longer b c -> longer a c.
Proof. intros (x & X) (y & Y). exists (x ++ y). rewrite Y, X, app_assoc. reflexivity. Qed.

(** What a step may do to the state; [js]: the entry points it may set *)
Definition evolves (js : list (option nat)) (s s' : kst) : Prop :=
  same_shape t0 (k_tbl s) /\ same_shape t0 (k_tbl s') /\ ext (k_code s) (k_code s') /\
  (k_ftab s' = k_ftab s /\ longer s s') /\ length (k_fpcs s') = length (k_fpcs s) /\
  forall j, ~ In (Some j) js -> nth_error (k_fpcs s') j = nth_error (k_fpcs s) j.

Lemma evolves_trans js js' a b c : evolves js a b -> evolves js' b c -> evolves (js ++ js') a c.
Proof.
  intros (S1 & S2 & X1 & (F1 & W1) & L1 & K1) (S3 & S4 & X2 & (F2 & W2) & L2 & K2).
  split; auto. split; auto. split; [eapply ext_trans; eauto|]. split; [split; [congruence|eapply longer_trans; eauto]|]. split; [congruence|].
  intros j Hj. rewrite K2, K1; auto; intros Hi; apply Hj, in_app_iff; auto.
Qed.

Lemma grows_evolves s s' : same_shape t0 (k_tbl s) -> grows s s' -> evolves [] s s'.
Proof.
  intros Sh (O & X). assert (W : longer s s') by (apply longer_refl; rewrite O; reflexivity).
  split; auto. split; [rewrite O; exact Sh|]. split; [exact X|]. split; [|rewrite O; auto]. split; [rewrite O; auto|exact W].
Qed.

Lemma patched_evolves pos v a s s' js : patched pos v s s' -> plen (k_code a) <= pos ->
  evolves js a s -> evolves js a s'.
Proof.
  intros (O & L & A & _) P (S1 & S2 & X & F & Ln & K).
  assert (k_tbl s' = k_tbl s /\ k_fpcs s' = k_fpcs s /\ k_ftab s' = k_ftab s) as (E1 & E2 & E3)
    by (rewrite O; auto).
  split; auto. unfold longer in *. rewrite E1, E2, E3. split; auto. split; auto. split; [destruct X; lia|].
  eapply agree_trans; [apply X|]. eapply agree_sub; eauto. lia.
Qed.

Lemma evolves_app js js' a b : evolves js a b -> incl js js' -> evolves js' a b.
Proof. intros (A & B & C & D & E & F) I. do 5 (split; auto). Qed.

Lemma entry_later js s s' f m : entry s f m -> evolves js s s' -> ~ In (findex t0 f) js -> entry s' f m.
Proof.
  intros (i & E & N) (_ & _ & _ & _ & _ & K) Hn. exists i. split; auto. rewrite K; auto. rewrite <- E. exact Hn.
Qed.

Definition emits_stmt (m : km (list (bool * Z))) (st : tstmt) : Prop :=
  forall s p s', same_shape t0 (k_tbl s) -> NoDup (ids st) -> m s = COk p s' ->
    evolves (ids st) s s' /\ ordered (plen (k_code s)) (plen (k_code s')) p /\
    (plen (k_code s') < 2^31 ->
     lay_stmt t0 (k_code s') (entry s') anywhere st (plen (k_code s)) (plen (k_code s')) p).

(** Stores, declarations *)
Lemma put_var_strings r g t t' : put_var t r g = Some t' -> tb_strings t' = tb_strings t.
Proof.
  unfold put_var. intros E. repeat match type of E with
  | match ?x with _ => _ end = _ => destruct x; try discriminate E end; injection E as <-; reflexivity.
Qed.
Lemma set_var_init_strings r t t' : set_var_init r t = COk tt t' -> tb_strings t' = tb_strings t.
Proof.
  unfold set_var_init. intros E. destruct r as [id|id|f i|f i]; try discriminate E.
  - destruct (sym_at t id) as [[? ? []]|]; try discriminate E. injection E as <-. reflexivity.
  - destruct (put_var t (RLocal f i) lv_set_init) eqn:V; try discriminate E. injection E as <-. eapply put_var_strings; eauto.
  - destruct (put_var t (RArg f i) lv_set_init) eqn:V; try discriminate E. injection E as <-. eapply put_var_strings; eauto.
Qed.
Lemma register_grows tab s tab' i : register_string tab s = Ok (tab', i) -> exists x, tab' = tab ++ x.
Proof.
  unfold register_string, oassert. destruct (find_string _ _ _).
  - intros [= <- _]. exists []. rewrite app_nil_r. reflexivity.
  - destruct (_ <? _)%nat; try discriminate. intros [= <- _]. eauto.
Qed.

Lemma update_erase (g : lvar -> lvar) : (forall v, erase_var (g v) = erase_var v) ->
  forall l i v0, nth_error l i = Some v0 -> map erase_var (update l i (g v0)) = map erase_var l.
Proof.
  intros Hg. induction l as [|x l IH]; intros [|i] v0 E; try discriminate.
  - injection E as ->. unfold update. cbn. rewrite Hg. reflexivity.
  - change (update (x :: l) (S i) (g v0)) with (x :: update l i (g v0)). cbn [map]. f_equal. apply IH. exact E.
Qed.

Definition unique (t : tbl) : Prop := NoDup (map sy_id (tb_syms t)).
Lemma shape_unique t t' : same_shape t t' -> unique t -> unique t'.
Proof.
  intros (E & _) U. unfold unique. replace (map sy_id (tb_syms t')) with (map sy_id (tb_syms t)); auto.
  assert (M : forall l, map sy_id l = map sy_id (map erase l)) by (intros; rewrite map_map; reflexivity).
  rewrite (M (tb_syms t)), (M (tb_syms t')), E. reflexivity.
Qed.

Lemma sym_at_unique t id y z : unique t -> sym_at t id = Some y -> In z (tb_syms t) -> sy_id z = id -> z = y.
Proof.
  unfold unique, sym_at. induction (tb_syms t) as [|x l IH]; cbn; [discriminate|]. intros U F I E.
  apply NoDup_cons_iff in U. destruct U as (N & U). destruct (Nat.eqb_spec (sy_id x) id) as [Ex|Nx].
  - injection F as ->. destruct I as [->|I]; auto. exfalso. apply N. rewrite Ex, <- E. apply in_map. exact I.
  - destruct I as [->|I]; [contradiction|]. auto.
Qed.

Lemma put_body_shape t id y b : unique t -> sym_at t id = Some y -> erase_body b = erase_body (sy_body y) ->
  same_shape t (put_body t id b).
Proof.
  intros U F E. unfold put_body. split; [|auto 6]. cbn [set_syms tb_syms]. rewrite map_map.
  apply map_ext_in. intros z Hz. destruct (Nat.eqb_spec (sy_id z) id) as [Ez|]; auto.
  pose proof (sym_at_unique _ _ _ _ U F Hz Ez). subst z. unfold erase. cbn. rewrite E, Ez. reflexivity.
Qed.

Lemma put_var_shape t r g t' : unique t -> (forall v, erase_var (g v) = erase_var v) ->
  put_var t r g = Some t' -> same_shape t t'.
Proof.
  intros U Hg. destruct r as [id|id|f i|f i]; cbn [put_var]; try discriminate;
    destruct (sym_at t f) as [y|] eqn:Y; try discriminate; destruct y as [yi yn []]; try discriminate.
  - destruct (nth_error locals i) eqn:N; try discriminate. intros [= <-]. eapply put_body_shape; eauto.
    cbn. f_equal. apply update_erase; auto.
  - destruct (nth_error args i) eqn:N; try discriminate. intros [= <-]. eapply put_body_shape; eauto.
    cbn. f_equal. apply update_erase; auto.
Qed.

Lemma set_var_init_shape r t u t' : unique t -> set_var_init r t = COk u t' -> same_shape t t'.
Proof.
  intros U E. unfold set_var_init in E. destruct r as [id|id|f i|f i]; try discriminate.
  - destruct (sym_at t id) as [y|] eqn:Y; try discriminate. destruct y as [yi yn []]; try discriminate.
    injection E as _ <-. eapply put_body_shape; [exact U|exact Y|reflexivity].
  - destruct (put_var t (RLocal f i) lv_set_init) eqn:V; try discriminate. injection E as _ <-.
    eapply put_var_shape; [exact U| |exact V]. reflexivity.
  - destruct (put_var t (RArg f i) lv_set_init) eqn:V; try discriminate. injection E as _ <-.
    eapply put_var_shape; [exact U| |exact V]. reflexivity.
Qed.

Hypothesis U0 : unique t0.

Definition emits_k (m : km unit) (L : program -> Z -> Z -> Prop) : Prop :=
  forall s u s', same_shape t0 (k_tbl s) -> m s = COk u s' ->
    evolves [] s s' /\ k_fpcs s' = k_fpcs s /\
    (plen (k_code s') < 2^31 -> L (k_code s') (plen (k_code s)) (plen (k_code s'))).

Lemma emits_emits_k m L : emits t0 m L -> emits_k m L.
Proof.
  intros E s u s' Sh X. destruct (E _ _ _ Sh X) as (G & Q). split; [apply grows_evolves; auto|]. split; auto.
  destruct G as (-> & _). reflexivity.
Qed.

Lemma compile_assign_ok op l r : emits_k (compile_assign op l r) (fun C => lay_assign t0 C op l r).
Proof.
  destruct l; cbn [compile_assign lay_assign]; try (intros s u s' _; discriminate).
  - (* variable *)
    intros s u s' Sh E. inv_bind E. inv_bind E.
    assert (X : emits t0 (cbind (compile_rhs op (TId r0 t) r) (fun _ => set_ref r0))
      (fun C a b => exists m, lay_rhs t0 C op (TId r0 t) r a m /\ at_set t0 C r0 m b)).
    { apply emits_seq; [apply compile_rhs_ok|apply emits_set|]. intros c C a b. apply rhs_agree. }
    destruct (X s v0 s1 Sh) as (G & Q). { unfold cbind. rewrite E0. exact E1. }
    unfold kon_tbl in E. destruct (set_var_init r0 (k_tbl s1)) as [[] t'| | | | |] eqn:V; try discriminate.
    injection E as _ <-. cbn [set_tbl k_code k_fpcs].
    assert (Sh1 : same_shape t0 (k_tbl s1)) by (rewrite (only_tbl _ _ (proj1 G)); exact Sh).
    assert (S' : same_shape (k_tbl s1) t') by (eapply set_var_init_shape; eauto; eapply shape_unique; eauto).
    destruct (grows_evolves _ _ Sh G) as (A1 & A2 & A3 & (A4 & W) & A5 & A6).
    split; [|split; auto; destruct G as (-> & _); reflexivity].
    split; auto. split; [eapply shape_trans; eauto|]. split; auto. split; auto. split; auto.
    eapply longer_trans; [exact W|]. apply longer_refl. cbn [k_tbl set_tbl]. eapply set_var_init_strings; eauto.
  - (* field *)
    intros s u s' Sh E. inv_bind E. destruct (compile_rhs_ok t0 op (TDot l f t) r _ _ _ Sh E0) as (G1 & Q1).
    assert (Sh1 : same_shape t0 (k_tbl s0)) by (rewrite (only_tbl _ _ (proj1 G1)); exact Sh).
    inv_bind E. destruct (need_field_ok _ _ _ _ _ _ Sh1 E1) as (-> & Fn & Fb).
    apply (emits_seq t0 _ _ (fun C => lay t0 C l) (fun C a b => at_i C a (IStructSet v0) b)) in E; auto.
    + destruct E as (G & Q). pose proof (grows_trans _ _ _ G1 G) as Gt.
      split; [apply grows_evolves; auto|]. split; [destruct Gt as (-> & _); reflexivity|].
      intros B. destruct (Q B) as (m & L1 & L2). pose proof (ext_len _ _ (proj2 G)). exists (plen (k_code s0)), m, v0.
      split; [|auto]. eapply rhs_agree; [apply Q1; lia|]. eapply agree_sub; [apply G|apply plen_nonneg|lia].
    + apply compile_expr_ok.
    + apply emits_i. exact Fb.
    + apply mono_lay.
  - (* index *)
    apply emits_emits_k. destruct setf as [f|].
    + eapply emits_weaken.
      * apply emits_seq; [apply compile_expr_ok| |apply mono_lay]. apply emits_seq; [apply compile_expr_ok| |apply mono_lay].
        apply emits_seq; [apply compile_rhs_ok| |intros c C a b; apply rhs_agree].
        apply emits_call_id. apply is_byte_small. lia.
      * intros C a b (m1 & L1 & m2 & L2 & m3 & L3 & L4). exists m1, m2, m3, f. auto.
    + intros s u s' _ E. inv_bind E. inv_bind E. inv_bind E. discriminate.
Qed.

Lemma record_line_ok file n s u s' : same_shape t0 (k_tbl s) -> record_line file n s = COk u s' ->
  evolves [] s s' /\ k_code s' = k_code s /\ k_fpcs s' = k_fpcs s.
Proof.
  intros Sh E. unfold record_line in E. inv_bind E. injection E as _ <-. cbn [set_lines k_code k_fpcs].
  assert (X : same_shape t0 (k_tbl s0) /\ k_code s0 = k_code s /\ k_fpcs s0 = k_fpcs s /\ k_ftab s0 = k_ftab s /\ longer s s0).
  { destruct file as [f|].
    - inv_bind E0. apply cret_ok in E0. destruct E0 as (_ & ->). unfold kon_tbl, intern in E.
      destruct (register_string (tb_strings (k_tbl s)) f) as [[tab i]| | |] eqn:Rs; try discriminate. injection E as _ <-.
      destruct (register_grows _ _ _ _ Rs) as (x & Gx). do 4 (split; auto). exists x. exact Gx.
    - apply cret_ok in E0. destruct E0 as (_ & ->). do 4 (split; auto). apply longer_refl. auto. }
  destruct X as (X1 & X2 & X3 & X4 & X5). split; auto. split; auto. split; auto.
  cbn [set_lines k_code k_fpcs k_ftab]. rewrite X2, X3. split; [apply ext_refl|]. auto.
Qed.

Definition claim (st : tstmt) (s : kst) (p : list (bool * Z)) (s' : kst) : Prop :=
  evolves (ids st) s s' /\ ordered (plen (k_code s)) (plen (k_code s')) p /\
    (plen (k_code s') < 2^31 ->
     lay_stmt t0 (k_code s') (entry s') anywhere st (plen (k_code s)) (plen (k_code s')) p).

Lemma claim_simple st s s' L : evolves [] s s' -> ids st = [] ->
  (L -> lay_stmt t0 (k_code s') (entry s') anywhere st (plen (k_code s)) (plen (k_code s')) []) ->
  (plen (k_code s') < 2^31 -> L) -> claim st s [] s'.
Proof.
  intros V I H Q. split; [rewrite I; exact V|]. split; [|auto].
  destruct V as (_ & _ & X & _). apply ext_len in X. exact X.
Qed.

Lemma patch_redirected brk cont p a b s u s' : patch_all p brk cont s = COk u s' -> ordered a b p ->
  0 <= a -> b <= plen (k_code s) -> 0 <= brk < 2^31 -> 0 <= cont < 2^31 ->
  redirected a b p anywhere (targets brk cont) (k_code s) (k_code s').
Proof.
  intros E O Ha Hb B1 B2. destruct (patch_all_ok _ _ _ _ _ _ _ _ E O Ha Hb) as (_ & _ & _ & _ & _ & B).
  intros k x aa bb Hi La Lb A J _. exists (if k then brk else cont). split; [|reflexivity].
  apply (jump_patched 33 IGoto (k_code s) _ _ x _ _ (or_introl (conj eq_refl eq_refl)) J A (B _ _ Hi)).
  destruct k; auto.
Qed.

(** The state after [patch_all] of a loop body's jumps *)
Lemma patch_all_evolves brk cont p a b s u s' js s0 : patch_all p brk cont s = COk u s' -> ordered a b p ->
  plen (k_code s0) <= a -> b <= plen (k_code s) -> evolves js s0 s -> evolves js s0 s'.
Proof.
  intros E O Ha Hb (S1 & S2 & X & F & Ln & K). pose proof (plen_nonneg (k_code s0)).
  destruct (patch_all_ok _ _ _ _ _ _ _ _ E O ltac:(lia) Hb) as (O' & L & A & _).
  assert (k_tbl s' = k_tbl s /\ k_fpcs s' = k_fpcs s /\ k_ftab s' = k_ftab s) as (E1 & E2 & E3)
    by (rewrite O'; auto).
  split; auto. unfold longer in *. rewrite E1, E2, E3. split; auto. split; auto. split; [destruct X; lia|].
  eapply agree_trans; [apply X|]. eapply agree_sub; eauto. lia.
Qed.

Lemma set_fpc_ok f pc s n s' : same_shape t0 (k_tbl s) -> set_fpc f pc s = COk n s' ->
  exists i args locals ret, option_map sy_body (sym_at t0 f) = Some (SyFunc i args locals ret) /\
    n = length locals /\ findex t0 f = Some i /\ entry s' f pc /\ k_code s' = k_code s /\
    evolves [findex t0 f] s s'.
Proof.
  intros Sh E. unfold set_fpc in E. destruct (sym_at (k_tbl s) f) as [y|] eqn:Y; try discriminate.
  destruct y as [yi yn []]; try discriminate. destruct (Nat.ltb_spec index (length (k_fpcs s))); try discriminate.
  injection E as <- <-. pose proof (shape_sym_at _ _ f Sh) as Q. rewrite Y in Q.
  destruct (sym_at t0 f) as [z|] eqn:Z0; try discriminate. destruct z as [zi zn []]; cbn in Q; try discriminate.
  injection Q as _ _ -> _ Ql _. apply (f_equal (@length _)) in Ql. rewrite !map_length in Ql.
  assert (Fi : findex t0 f = Some index) by (unfold findex; rewrite Z0; reflexivity).
  exists index, args0, locals0, ret0. split; [reflexivity|]. split; [auto|]. split; auto. split.
  { exists index. split; auto. cbn [set_fpcs k_fpcs]. apply nth_error_update_eq. auto. }
  split; [reflexivity|]. split; auto. cbn [set_fpcs k_tbl k_code k_ftab k_fpcs]. split; auto. split; [apply ext_refl|].
  split; [split; auto; apply longer_refl; auto|]. split; [apply update_length|]. intros j Hj. apply nth_error_update_ne. intros ->. apply Hj. left. auto.
Qed.

Lemma lay_entries_later st s s' js C T a b p : evolves js s s' -> (forall f bd, In (f, bd) (bodies st) -> ~ In (findex t0 f) js) ->
  lay_stmt t0 C (entry s) T st a b p -> lay_stmt t0 C (entry s') T st a b p.
Proof.
  intros V H. apply stmt_entries. intros f bd Hi m E. eapply entry_later; eauto.
Qed.

Lemma nodup_app_l {A} (l r : list A) : NoDup (l ++ r) -> NoDup l /\ NoDup r /\ forall x, In x l -> ~ In x r.
Proof.
  induction l as [|x l IH]; cbn; intros N.
  - split; [constructor|]. split; auto.
  - apply NoDup_cons_iff in N. destruct N as (N1 & N2). destruct (IH N2) as (A1 & A2 & A3).
    split; [constructor; auto; intros Hi; apply N1, in_app_iff; auto|]. split; auto.
    intros y [->|Hy] Hr; [apply N1, in_app_iff; auto|]. eapply A3; eauto.
Qed.

Lemma ids_in st f bd : In (f, bd) (bodies st) -> In (findex t0 f) (ids st).
Proof. intros Hi. apply (in_map (fun b => findex t0 (fst b)) _ _ Hi). Qed.

Lemma stmts_ok file ss : Forall (fun st => emits_stmt (compile_stmt file st) st) ss ->
  forall s p s', same_shape t0 (k_tbl s) -> NoDup (flat_map ids ss) ->
    seq_stmts (map (compile_stmt file) ss) s = COk p s' ->
    evolves (flat_map ids ss) s s' /\ ordered (plen (k_code s)) (plen (k_code s')) p /\
    (plen (k_code s') < 2^31 ->
     lay_stmts (map (lay_stmt t0 (k_code s') (entry s') anywhere) ss) (plen (k_code s)) (plen (k_code s')) p).
Proof.
  induction 1 as [|st ss Hs F IH]; intros s p s' Sh N E; cbn [map seq_stmts flat_map] in *.
  - apply cret_ok in E. destruct E as (-> & ->). split; [apply grows_evolves; auto; apply grows_refl|].
    split; [cbn; lia|]. intros _. cbn. auto.
  - inv_bind E. inv_bind E. apply cret_ok in E. destruct E as (-> & ->).
    apply nodup_app_l in N. destruct N as (N1 & N2 & N3).
    destruct (Hs _ _ _ Sh N1 E0) as (V1 & O1 & Q1). pose proof V1 as (_ & Sh1 & _).
    destruct (IH _ _ _ Sh1 N2 E1) as (V2 & O2 & Q2). split; [eapply evolves_trans; eauto|].
    split; [eapply ordered_app; eauto|]. intros B. exists (plen (k_code s0)), v, v0.
    split; [|split; auto]. pose proof V2 as (_ & _ & (L2 & A2) & _).
    eapply lay_entries_later; [exact V2| |].
    { intros f bd Hi. apply N3. eapply ids_in; eauto. }
    eapply stmt_agree; [apply Q1; lia|]. eapply agree_sub; [exact A2|apply plen_nonneg|lia].
Qed.

Lemma evolves_shape js s s' : evolves js s s' -> same_shape t0 (k_tbl s').
Proof. intros V; apply V. Qed.
Lemma evolves_ext js s s' : evolves js s s' -> ext (k_code s) (k_code s').
Proof. intros V; apply V. Qed.

Lemma ids_block n ss : ids (TSBlock n ss) = flat_map ids ss.
Proof. unfold ids. cbn [bodies]. induction ss as [|s ss IH]; cbn [flat_map map]; auto. rewrite map_app, IH. reflexivity. Qed.

Lemma evolves_nil_r js a b c : evolves js a b -> evolves [] b c -> evolves js a c.
Proof. intros V1 V2. pose proof (evolves_trans _ _ _ _ _ V1 V2) as V. rewrite app_nil_r in V. exact V. Qed.

Ltac lens := repeat match goal with
  | V : evolves _ ?a ?b |- _ =>
      lazymatch goal with H : plen (k_code a) <= plen (k_code b) |- _ => fail | _ => pose proof (ext_len _ _ (evolves_ext _ _ _ V)) end
  end.

Ltac opened := repeat match goal with V : evolves _ _ _ |- _ => destruct V as (_ & _ & (_ & ?) & _) end.

Lemma compile_stmt_ok file st : emits_stmt (compile_stmt file st) st.
Proof.
  induction st using tstmt_ind'; intros s0 p s' Sh0 N E; cbn [compile_stmt] in E;
    apply cbind_ok in E; destruct E as (u0 & s & Er & E); destruct (record_line_ok _ _ _ _ _ Sh0 Er) as (V0 & Ec & Ef);
    pose proof (evolves_shape _ _ _ V0) as Sh;
    (match type of N with NoDup (ids ?st) => assert (Cl : claim st s p s') end;
     [|destruct Cl as (K1 & K2 & K3); rewrite <- Ec; split;
       [exact (evolves_trans [] _ _ _ _ V0 K1)|split; [exact K2|exact K3]]]);
    clear Er V0 Sh0 Ec Ef s0 u0.
  - (* call *)
    inv_bind E. apply cret_ok in E. destruct E as (-> & ->).
    destruct (compile_call_ok t0 f a _ _ _ Sh E0) as (G & Q).
    eapply claim_simple; [apply grows_evolves; eauto|reflexivity| |exact Q]. cbn [lay_stmt]. auto.
  - inv_bind E. apply cret_ok in E. destruct E as (-> & ->).
    destruct (compile_assign_ok _ _ _ _ _ _ Sh E0) as (G & _ & Q).
    eapply claim_simple; [eauto|reflexivity| |exact Q]. cbn [lay_stmt]. auto.
  - inv_bind E. apply cret_ok in E. destruct E as (-> & ->).
    destruct (compile_assign_ok _ _ _ _ _ _ Sh E0) as (G & _ & Q).
    eapply claim_simple; [eauto|reflexivity| |exact Q]. cbn [lay_stmt]. auto.
  - apply cret_ok in E. destruct E as (-> & ->).
    apply (claim_simple _ _ _ True); auto; [apply grows_evolves; auto; apply grows_refl|]. cbn [lay_stmt]. auto.
  - discriminate.
  - (* block *)
    rewrite ids_block in N. destruct (stmts_ok _ _ H _ _ _ Sh N E) as (V & O & Q).
    split; [rewrite ids_block; exact V|]. split; [exact O|]. intros B. cbn [lay_stmt]. auto.
  - (* function *)
    inv_bind E. rename s0 into s1, v into skip. apply goto_jumped in E0. destruct E0 as (G1 & P1 & P1' & J1).
    pose proof (grows_evolves _ _ Sh G1) as V1. pose proof (evolves_shape _ _ _ V1) as Sh1.
    inv_bind E. apply here_ok in E0. destruct E0 as (-> & ->).
    inv_bind E. rename s0 into s2, v into nloc.
    destruct (set_fpc_ok _ _ _ _ _ Sh1 E0) as (i & args & locals & ret & Y & -> & Fi & En & Ec2 & V2).
    pose proof (evolves_shape _ _ _ V2) as Sh2.
    inv_bind E. rename s0 into s3, E1 into El.
    assert (X3 : evolves [] s2 s3 /\ (length locals <= 255)%nat /\
      (plen (k_code s3) < 2^31 -> if (0 <? length locals)%nat
        then at_i (k_code s3) (plen (k_code s2)) (IPushNullN (Z.of_nat (length locals))) (plen (k_code s3))
        else plen (k_code s2) = plen (k_code s3))).
    { destruct (Nat.ltb_spec 255 (length locals)); [discriminate|]. destruct (Nat.ltb_spec 0 (length locals)).
      - apply (emits_i t0) in El; auto; [|cbn; unfold is_byte; lia]. destruct El as (G & Q).
        split; [apply grows_evolves; auto|]. split; [lia|auto].
      - apply cret_ok in El. destruct El as (_ & ->). split; [apply grows_evolves; auto; apply grows_refl|]. split; [lia|auto]. }
    destruct X3 as (V3 & Ll & Q3). clear El. pose proof (evolves_shape _ _ _ V3) as Sh3.
    inv_bind E. rename s0 into s4, v0 into q.
    unfold ids in N. cbn [bodies map fst] in N. apply NoDup_cons_iff in N. destruct N as (N1 & N2).
    destruct (IHst _ _ _ Sh3 N2 E1) as (V4 & O4 & Q4). pose proof (evolves_shape _ _ _ V4) as Sh4.
    inv_bind E. rename s0 into s5. destruct (emits_i t0 IReturn I _ _ _ Sh4 E2) as (G5 & Q5).
    pose proof (grows_evolves _ _ Sh4 G5) as V5.
    inv_bind E. apply here_ok in E3. destruct E3 as (-> & ->). inv_bind E. apply cret_ok in E. destruct E as (-> & ->).
    apply patch_patched in E3.
    assert (Vs : evolves (ids (TSProc n f st)) s s5).
    { pose proof (evolves_trans _ _ _ _ _ V1 (evolves_trans _ _ _ _ _ V2 (evolves_trans _ _ _ _ _ V3
        (evolves_nil_r _ _ _ _ V4 V5)))) as V. exact V. }
    assert (Vt : evolves (ids (TSProc n f st)) s s0) by (eapply patched_evolves; eauto; lia).
    split; [exact Vt|]. pose proof (plen_nonneg (k_code s)). lens.
    split; [cbn; lia|]. intros B. cbn [lay_stmt]. split; auto.
    destruct E3 as (O6 & L6 & A6 & A6' & B6). exists (plen (k_code s1)).
    assert (Ens : entry s0 f (plen (k_code s1))).
    { assert (En5 : entry s5 f (plen (k_code s1))).
      { eapply (entry_later []); [|exact V5|intros []]. eapply entry_later; [|exact V4|exact N1].
        eapply (entry_later []); [|exact V3|intros []]. exact En. }
      destruct En5 as (i' & F1 & F2). exists i'. split; auto. rewrite O6. exact F2. }
    rewrite Ec2 in *. clear Vs Vt. 
    pose proof V1 as (_ & _ & (_ & A1) & _). pose proof V3 as (_ & _ & (_ & A3) & _).
    pose proof V4 as (_ & _ & (_ & A4) & _). pose proof V5 as (_ & _ & (_ & A5) & _). rewrite Ec2 in *.
    split.
    { apply (jump_patched 33 IGoto (k_code s1) _ _ _ _ _ (or_introl (conj eq_refl eq_refl)) J1); [chain| |lia].
      replace (plen (k_code s1) - 4) with skip by lia. rewrite L6. exact B6. }
    split; [exact Ens|].
    exists i, args, locals, ret, (plen (k_code s3)), (plen (k_code s4)). split; [exact Y|]. split; [exact Ll|].
    split. { specialize (Q3 ltac:(lia)). destruct (0 <? length locals)%nat; [|exact Q3].
             eapply at_agree; [exact Q3|]. chain. }
    split; [|rewrite L6; eapply at_agree; [apply Q5; lia|chain]].
    exists q. apply (stmt_agree _ _ _ _ (k_code s4)); [|chain]. specialize (Q4 ltac:(lia)).
    eapply (lay_entries_later _ s4 s5 []) in Q4; [|exact V5|intros ? ? ? []].
    revert Q4. apply stmt_entries. intros g bd _ m (i' & F1 & F2). exists i'. split; auto. rewrite O6. exact F2.
  - (* if *)
    inv_bind E. rename s0 into s1. destruct (compile_expr_ok t0 c _ _ _ Sh E0) as (G1 & Q1).
    pose proof (grows_evolves _ _ Sh G1) as V1. pose proof (evolves_shape _ _ _ V1) as Sh1.
    inv_bind E. rename s0 into s2, v0 into skip. apply gotoz_jumped in E1. destruct E1 as (G2 & P2 & P2' & J2).
    pose proof (grows_evolves _ _ Sh1 G2) as V2. pose proof (evolves_shape _ _ _ V2) as Sh2.
    inv_bind E. rename s0 into s3, v0 into pa. pose proof (plen_nonneg (k_code s)).
    destruct b as [y|].
    + assert (NN : NoDup (ids st) /\ NoDup (ids y) /\ forall x, In x (ids st) -> ~ In x (ids y)).
      { unfold ids in *. cbn [bodies] in N. rewrite map_app in N. apply nodup_app_l in N. exact N. }
      destruct NN as (N1 & N2 & N3).
      destruct (IHst _ _ _ Sh2 N1 E1) as (V3 & O3 & Q3). pose proof (evolves_shape _ _ _ V3) as Sh3.
      inv_bind E. rename s0 into s4, v0 into ex. apply goto_jumped in E2. destruct E2 as (G4 & P4 & P4' & J4).
      pose proof (grows_evolves _ _ Sh3 G4) as V4. pose proof (evolves_shape _ _ _ V4) as Sh4.
      inv_bind E. apply here_ok in E2. destruct E2 as (-> & ->).
      inv_bind E. rename s0 into s5. apply patch_patched in E2.
      assert (V05 : evolves (ids st) s s5).
      { eapply patched_evolves; [exact E2| |]; [lens; lia|].
        exact (evolves_trans _ _ _ _ _ V1 (evolves_trans _ _ _ _ _ V2 (evolves_nil_r _ _ _ _ V3 V4))). }
      pose proof (evolves_shape _ _ _ V05) as Sh5.
      inv_bind E. rename s0 into s6, v1 into pb. destruct (H _ eq_refl _ _ _ Sh5 N2 E3) as (V6 & O6 & Q6).
      inv_bind E. apply here_ok in E4. destruct E4 as (-> & ->). inv_bind E. apply cret_ok in E. destruct E as (-> & ->).
      apply patch_patched in E4. lens.
      assert (Vt : evolves (ids (TSIf n c st (Some y))) s s0).
      { eapply patched_evolves; [exact E4|lia|]. unfold ids. cbn [bodies]. rewrite map_app.
        exact (evolves_trans _ _ _ _ _ V05 V6). }
      split; [exact Vt|]. destruct E2 as (O5 & L5 & A5 & A5' & B5). destruct E4 as (O7 & L7 & A7 & A7' & B7).
      split. { eapply ordered_app; [eapply ordered_sub; [exact O3|lia|]|rewrite L7; exact O6]. lia. }
      intros B. cbn [lay_stmt].
      exists (plen (k_code s1)), (plen (k_code s2)), (plen (k_code s3)), (plen (k_code s4)), pa, pb.
      pose proof V1 as (_ & _ & (_ & A1) & _). pose proof V2 as (_ & _ & (_ & A2) & _).
      pose proof V3 as (_ & _ & (_ & A3) & _). pose proof V4 as (_ & _ & (_ & A4) & _).
      pose proof V6 as (_ & _ & (_ & A6) & _).
      split; [eapply lay_agree; [apply Q1; lia|chain]|]. split.
      { apply (jump_patched 34 IGotoz (k_code s2) _ _ _ _ _ (or_intror (conj eq_refl eq_refl)) J2); [chain| |lia].
        replace (plen (k_code s2) - 4) with skip by lia. eapply bytes_agree; [exact B5|].
        change (Z.of_nat 4) with 4. chain. }
      split.
      { apply (stmt_agree _ _ _ _ (k_code s3)); [|chain]. specialize (Q3 ltac:(lia)).
        eapply (lay_entries_later _ s3 s4 []) in Q3; [|exact V4|intros ? ? ? []].
        assert (Q3' : lay_stmt t0 (k_code s3) (entry s5) anywhere st (plen (k_code s2)) (plen (k_code s3)) pa).
        { revert Q3. apply stmt_entries. intros g bd _ m (i' & F1 & F2). exists i'. split; auto. rewrite O5. exact F2. }
        eapply (lay_entries_later _ s5 s6) in Q3'; [|exact V6|intros f bd Hi; apply N3; eapply ids_in; eauto].
        revert Q3'. apply stmt_entries. intros g bd _ m (i' & F1 & F2). exists i'. split; auto. rewrite O7. exact F2. }
      split.
      { apply (jump_patched 33 IGoto (k_code s4) _ _ _ _ _ (or_introl (conj eq_refl eq_refl)) J4); [chain| |lia].
        replace (plen (k_code s4) - 4) with ex by lia. rewrite L7. exact B7. }
      split; auto. rewrite <- L5, L7. apply (stmt_agree _ _ _ _ (k_code s6)); [|chain].
      specialize (Q6 ltac:(lia)). revert Q6. apply stmt_entries.
      intros g bd _ m (i' & F1 & F2). exists i'. split; auto. rewrite O7. exact F2.
    + destruct (IHst _ _ _ Sh2 N E1) as (V3 & O3 & Q3). pose proof (evolves_shape _ _ _ V3) as Sh3.
      inv_bind E. apply here_ok in E2. destruct E2 as (-> & ->). inv_bind E. apply cret_ok in E. destruct E as (-> & ->).
      apply patch_patched in E2. lens.
      assert (Vt : evolves (ids (TSIf n c st None)) s s0).
      { eapply patched_evolves; [exact E2|lia|].
        exact (evolves_trans _ _ _ _ _ V1 (evolves_trans _ _ _ _ _ V2 V3)). }
      split; [exact Vt|]. destruct E2 as (O5 & L5 & A5 & A5' & B5).
      split; [eapply ordered_sub; [exact O3|lia|lia]|]. intros B. cbn [lay_stmt].
      exists (plen (k_code s1)), (plen (k_code s2)).
      pose proof V1 as (_ & _ & (_ & A1) & _). pose proof V2 as (_ & _ & (_ & A2) & _).
      pose proof V3 as (_ & _ & (_ & A3) & _). clear Vt.
      split; [eapply lay_agree; [apply Q1; lia|chain]|]. split.
      { apply (jump_patched 34 IGotoz (k_code s2) _ _ _ _ _ (or_intror (conj eq_refl eq_refl)) J2); [chain| |lia].
        replace (plen (k_code s2) - 4) with skip by lia. rewrite L5. exact B5. }
      rewrite L5. apply (stmt_agree _ _ _ _ (k_code s3)); [|chain].
      specialize (Q3 ltac:(lia)). revert Q3. apply stmt_entries.
      intros g bd _ m (i' & F1 & F2). exists i'. split; auto. rewrite O5. exact F2.
  - (* while *)
    inv_bind E. apply here_ok in E0. destruct E0 as (-> & ->).
    inv_bind E. rename s0 into s1. destruct (compile_expr_ok t0 c _ _ _ Sh E0) as (G1 & Q1).
    pose proof (grows_evolves _ _ Sh G1) as V1. pose proof (evolves_shape _ _ _ V1) as Sh1.
    inv_bind E. rename s0 into s2, v0 into skip. apply gotoz_jumped in E1. destruct E1 as (G2 & P2 & P2' & J2).
    pose proof (grows_evolves _ _ Sh1 G2) as V2. pose proof (evolves_shape _ _ _ V2) as Sh2.
    inv_bind E. rename s0 into s3, v0 into q. pose proof (plen_nonneg (k_code s)).
    destruct (IHst _ _ _ Sh2 N E1) as (V3 & O3 & Q3). pose proof (evolves_shape _ _ _ V3) as Sh3.
    inv_bind E. rename s0 into s4, v0 into bk. apply goto_jumped in E2. destruct E2 as (G4 & P4 & P4' & J4).
    pose proof (grows_evolves _ _ Sh3 G4) as V4.
    inv_bind E. apply here_ok in E2. destruct E2 as (-> & ->).
    inv_bind E. rename s0 into s5. apply patch_patched in E2.
    inv_bind E. apply cret_ok in E. destruct E as (-> & ->). rename s0 into s6. lens.
    assert (V5 : evolves (ids (TSWhile n c st)) s s5).
    { eapply patched_evolves; [exact E2|lia|].
      exact (evolves_trans _ _ _ _ _ V1 (evolves_trans _ _ _ _ _ V2 (evolves_nil_r _ _ _ _ V3 V4))). }
    destruct E2 as (O5 & L5 & A5 & A5' & B5).
    destruct (patch_all_ok _ _ _ _ _ _ _ _ E3 O3 ltac:(lia) ltac:(lia)) as (O6 & L6 & A6 & A6' & U6 & B6).
    assert (V6 : evolves (ids (TSWhile n c st)) s s6) by (eapply patch_all_evolves; [exact E3|exact O3|lia|lia|exact V5]).
    split; [exact V6|]. split; [cbn; lia|]. intros B. cbn [lay_stmt]. split; auto.
    pose proof (patch_redirected _ _ _ _ _ _ _ _ E3 O3 ltac:(lia) ltac:(lia) ltac:(lia) ltac:(lia)) as R6.
    exists (plen (k_code s1)), (plen (k_code s2)), (plen (k_code s3)), q.
    pose proof V1 as (_ & _ & (_ & A1) & _). pose proof V2 as (_ & _ & (_ & A2) & _).
    pose proof V3 as (_ & _ & (_ & A3) & _). pose proof V4 as (_ & _ & (_ & A4) & _). clear V5 V6.
    split; [eapply lay_agree; [apply Q1; lia|chain]|]. split.
    { rewrite L6, L5.
      apply (jump_patched 34 IGotoz (k_code s2) _ _ _ _ _ (or_intror (conj eq_refl eq_refl)) J2); [chain| |lia].
      replace (plen (k_code s2) - 4) with skip by lia. eapply bytes_agree; [exact B5|].
      change (Z.of_nat 4) with 4. chain. }
    split.
    { assert (Q5 : lay_stmt t0 (k_code s5) (entry s6) anywhere st (plen (k_code s2)) (plen (k_code s3)) q).
      { apply (stmt_agree _ _ _ _ (k_code s3)); [|chain]. specialize (Q3 ltac:(lia)).
        eapply (lay_entries_later _ s3 s4 []) in Q3; [|exact V4|intros ? ? ? []].
        revert Q3. apply stmt_entries. intros g bd _ m (i' & F1 & F2). exists i'. split; auto. rewrite O6, O5. exact F2. }
      rewrite L6, L5. apply (proj2 (stmt_move t0 (entry s6) st anywhere (targets (plen (k_code s4)) (plen (k_code s))) (k_code s5) (k_code s6)) _ _ _ Q5);
        assumption. }
    rewrite L6, L5. rewrite to_signed32_id in J4 by lia. destruct J4 as (kk & J4 & J4'). exists kk. split; auto.
    eapply decode_agree; [exact J4|]. chain.
  - (* for *)
    assert (NN : NoDup (ids st1) /\ NoDup (ids st3) /\ NoDup (ids st2) /\
      (forall x, In x (ids st1) -> ~ In x (ids st3 ++ ids st2)) /\ (forall x, In x (ids st3) -> ~ In x (ids st2))).
    { unfold ids in *. cbn [bodies] in N. rewrite !map_app in N. apply nodup_app_l in N. destruct N as (N1 & N2 & N3).
      apply nodup_app_l in N2. destruct N2 as (N4 & N5 & N6). auto. }
    destruct NN as (N1 & N3 & N2 & D1 & D3).
    inv_bind E. rename s0 into s1, v into qi. destruct (IHst1 _ _ _ Sh N1 E0) as (V1 & O1 & Q1).
    pose proof (evolves_shape _ _ _ V1) as Sh1.
    inv_bind E. apply here_ok in E1. destruct E1 as (-> & ->).
    inv_bind E. rename s0 into s2. destruct (compile_expr_ok t0 c _ _ _ Sh1 E1) as (G2 & Q2).
    pose proof (grows_evolves _ _ Sh1 G2) as V2. pose proof (evolves_shape _ _ _ V2) as Sh2.
    inv_bind E. rename s0 into s3, v0 into skip. apply gotoz_jumped in E2. destruct E2 as (G3 & P3 & P3' & J3).
    pose proof (grows_evolves _ _ Sh2 G3) as V3. pose proof (evolves_shape _ _ _ V3) as Sh3.
    inv_bind E. rename s0 into s4, v0 into q. pose proof (plen_nonneg (k_code s)).
    destruct (IHst3 _ _ _ Sh3 N3 E2) as (V4 & O4 & Q4). pose proof (evolves_shape _ _ _ V4) as Sh4.
    inv_bind E. apply here_ok in E3. destruct E3 as (-> & ->).
    inv_bind E. rename s0 into s5, v0 into qs. destruct (IHst2 _ _ _ Sh4 N2 E3) as (V5 & O5 & Q5).
    pose proof (evolves_shape _ _ _ V5) as Sh5.
    inv_bind E. rename s0 into s6, v0 into bk. apply goto_jumped in E4. destruct E4 as (G6 & P6 & P6' & J6).
    pose proof (grows_evolves _ _ Sh5 G6) as V6.
    inv_bind E. apply here_ok in E4. destruct E4 as (-> & ->).
    inv_bind E. rename s0 into s7. apply patch_patched in E4.
    inv_bind E. apply cret_ok in E. destruct E as (-> & ->). rename s0 into s8. lens.
    assert (V7 : evolves (ids (TSFor n st1 c st2 st3)) s s7).
    { eapply patched_evolves; [exact E4|lia|].
      unfold ids. cbn [bodies]. rewrite !map_app.
      exact (evolves_trans _ _ _ _ _ V1 (evolves_trans _ _ _ _ _ V2 (evolves_trans _ _ _ _ _ V3
        (evolves_trans _ _ _ _ _ V4 (evolves_nil_r _ _ _ _ V5 V6))))). }
    destruct E4 as (O7 & L7 & A7 & A7' & B7).
    destruct (patch_all_ok _ _ _ _ _ _ _ _ E5 O4 ltac:(lia) ltac:(lia)) as (O8 & L8 & A8 & A8' & U8 & B8).
    assert (V8 : evolves (ids (TSFor n st1 c st2 st3)) s s8) by (eapply patch_all_evolves; [exact E5|exact O4|lia|lia|exact V7]).
    split; [exact V8|]. split; [cbn; lia|]. intros B. cbn [lay_stmt]. split; auto.
    pose proof (patch_redirected _ _ _ _ _ _ _ _ E5 O4 ltac:(lia) ltac:(lia) ltac:(lia) ltac:(lia)) as R8.
    exists (plen (k_code s1)), (plen (k_code s2)), (plen (k_code s3)), (plen (k_code s4)), (plen (k_code s5)), qi, q, qs.
    pose proof V1 as (_ & _ & (_ & A1) & _). pose proof V2 as (_ & _ & (_ & A2) & _).
    pose proof V3 as (_ & _ & (_ & A3) & _). pose proof V4 as (_ & _ & (_ & A4) & _).
    pose proof V5 as (_ & _ & (_ & A5) & _). pose proof V6 as (_ & _ & (_ & A6) & _). clear V7 V8.
    assert (En68 : forall f m, entry s6 f m -> entry s8 f m).
    { intros f m (i' & F1 & F2). exists i'. split; auto. rewrite O8, O7. exact F2. }
    split.
    { apply (stmt_agree _ _ _ _ (k_code s1)); [|chain]. specialize (Q1 ltac:(lia)).
      eapply (lay_entries_later _ s1 s6) in Q1.
      - revert Q1. apply stmt_entries. intros; apply En68; assumption.
      - exact (evolves_trans _ _ _ _ _ V2 (evolves_trans _ _ _ _ _ V3
        (evolves_trans _ _ _ _ _ V4 (evolves_nil_r _ _ _ _ V5 V6)))).
      - intros f bd Hi. apply D1. eapply ids_in; eauto. }
    split; [eapply lay_agree; [apply Q2; lia|chain]|]. split.
    { rewrite L8, L7.
      apply (jump_patched 34 IGotoz (k_code s3) _ _ _ _ _ (or_intror (conj eq_refl eq_refl)) J3); [chain| |lia].
      replace (plen (k_code s3) - 4) with skip by lia. eapply bytes_agree; [exact B7|].
      change (Z.of_nat 4) with 4. chain. }
    split.
    { assert (Q7 : lay_stmt t0 (k_code s7) (entry s8) anywhere st3 (plen (k_code s3)) (plen (k_code s4)) q).
      { apply (stmt_agree _ _ _ _ (k_code s4)); [|chain]. specialize (Q4 ltac:(lia)).
        eapply (lay_entries_later _ s4 s6) in Q4; [|exact (evolves_nil_r _ _ _ _ V5 V6)|intros f bd Hi; apply D3; eapply ids_in; eauto].
        revert Q4. apply stmt_entries. intros; apply En68; assumption. }
      rewrite L8, L7. apply (proj2 (stmt_move t0 (entry s8) st3 anywhere (targets (plen (k_code s6)) (plen (k_code s4))) (k_code s7) (k_code s8)) _ _ _ Q7);
        assumption. }
    split.
    { apply (stmt_agree _ _ _ _ (k_code s5)); [|chain]. specialize (Q5 ltac:(lia)).
      eapply (lay_entries_later _ s5 s6 []) in Q5; [|exact V6|intros ? ? ? []].
      revert Q5. apply stmt_entries. intros; apply En68; assumption. }
    rewrite L8, L7. rewrite to_signed32_id in J6 by lia. destruct J6 as (kk & J6 & J6'). exists kk. split; auto.
    eapply decode_agree; [exact J6|]. chain.
  - (* return *)
    destruct e as [e|].
    + inv_bind E. inv_bind E. apply cret_ok in E. destruct E as (-> & ->).
      assert (X : emits t0 (cbind (compile_expr e) (fun _ => emit_i IReturnValue))
        (fun C a b => exists m, lay t0 C e a m /\ at_i C m IReturnValue b)).
      { apply emits_seq; [apply compile_expr_ok|apply emits_i; exact I|apply mono_lay]. }
      destruct (X s v0 s1 Sh) as (G & Q). { unfold cbind. rewrite E0. exact E1. }
      eapply claim_simple; [apply grows_evolves; eauto|reflexivity| |exact Q]. cbn [lay_stmt]. auto.
    + inv_bind E. apply cret_ok in E. destruct E as (-> & ->).
      destruct (emits_i t0 IReturn I _ _ _ Sh E0) as (G & Q).
      eapply claim_simple; [apply grows_evolves; eauto|reflexivity| |exact Q]. cbn [lay_stmt]. auto.
  - (* break *)
    inv_bind E. apply cret_ok in E. destruct E as (-> & ->). apply goto_jumped in E0. destruct E0 as (G1 & P1 & P1' & J1).
    split; [apply grows_evolves; auto|]. split; [cbn; lia|]. intros B. cbn [lay_stmt]. eexists. split; [exact J1|].
    split; [exact I|]. f_equal. f_equal. lia.
  - inv_bind E. apply cret_ok in E. destruct E as (-> & ->). apply goto_jumped in E0. destruct E0 as (G1 & P1 & P1' & J1).
    split; [apply grows_evolves; auto|]. split; [cbn; lia|]. intros B. cbn [lay_stmt]. eexists. split; [exact J1|].
    split; [exact I|]. f_equal. f_equal. lia.
  - apply cret_ok in E. destruct E as (-> & ->).
    apply (claim_simple _ _ _ True); auto; [apply grows_evolves; auto; apply grows_refl|]. cbn [lay_stmt]. auto.
Qed.

Lemma compile_all_seq file ss : forall s u s', compile_all file ss s = COk u s' ->
  exists p, seq_stmts (map (compile_stmt file) ss) s = COk p s'.
Proof.
  induction ss as [|st ss IH]; intros s u s' E; cbn [compile_all map seq_stmts] in *.
  - apply cret_ok in E. destruct E as (_ & ->). eexists. reflexivity.
  - inv_bind E. destruct (IH _ _ _ E) as (p & E1). exists (v ++ p). unfold cbind. rewrite E0, E1. reflexivity.
Qed.

Lemma compile_all_ok file ss s u s' : same_shape t0 (k_tbl s) -> NoDup (flat_map ids ss) ->
  compile_all file ss s = COk u s' ->
  evolves (flat_map ids ss) s s' /\
  (plen (k_code s') < 2^31 -> exists p,
     lay_stmts (map (lay_stmt t0 (k_code s') (entry s') anywhere) ss) (plen (k_code s)) (plen (k_code s')) p).
Proof.
  intros Sh N E. destruct (compile_all_seq _ _ _ _ _ E) as (p & E').
  destruct (stmts_ok file ss) with (s := s) (p := p) (s' := s') as (V & O & Q); auto.
  - apply Forall_forall. intros st _. apply compile_stmt_ok.
  - split; eauto.
Qed.
End Stmt.
