From Verif Require Import Base Float64 Token Lexer LexerAbs LexerC.
Local Open Scope Z_scope.

Section Src.
Variable src : text.
Notation len := (Z.of_nat (List.length src)).

(** [c] is in range and its pending text is [p]. *)
Definition at_ (p : text) (c : clex) : Prop :=
  0 <= c_pos c <= len /\
  match c_last c with
  | Some x => p = x :: skipn (Z.to_nat (c_pos c)) src
  | None => p = [] /\ c_pos c = len
  end.

Definition keep (c c' : clex) : Prop :=
  c_line c' = c_line c /\ c_lexeme c' = c_lexeme c /\ c_b c' = c_b c /\ c_i c' = c_i c /\ c_f c' = c_f c.

Lemma rd_ok i : 0 <= i <= len -> rd src i = Ok (nth_error src (Z.to_nat i)).
Proof.
  intros H. unfold rd. replace ((0 <=? i) && (i <=? len)) with true; [reflexivity|].
  symmetry. apply andb_true_intro. split; apply Z.leb_le; lia.
Qed.

Lemma skipn_nth (s : text) n : match nth_error s n with
  | Some c => skipn n s = c :: skipn (S n) s /\ (n < List.length s)%nat
  | None => skipn n s = [] /\ (List.length s <= n)%nat
  end.
Proof.
  revert s; induction n as [|n IH]; intros [|c s]; cbn [nth_error].
  - split; [reflexivity|cbn; lia].
  - split; [reflexivity|cbn; lia].
  - split; [reflexivity|cbn; lia].
  - specialize (IH s). destruct (nth_error s n); cbn [skipn List.length]; destruct IH; split; auto; lia.
Qed.

Lemma get_char_ok c : 0 <= c_pos c <= len ->
  exists c', c_get_char src c = Ok c' /\ at_ (skipn (Z.to_nat (c_pos c)) src) c' /\ keep c c'.
Proof.
  intros H. unfold c_get_char. rewrite (rd_ok _ H). cbn [obind].
  pose proof (skipn_nth src (Z.to_nat (c_pos c))) as N.
  destruct (nth_error src (Z.to_nat (c_pos c))) as [x|]; destruct N as [N1 N2]; cbn [obind].
  - eexists; split; [reflexivity|]. split; [|repeat split]. split; cbn; [lia|].
    rewrite N1. f_equal. f_equal. lia.
  - eexists; split; [reflexivity|]. split; [|repeat split]. split; cbn; [lia|]. split; [exact N1|lia].
Qed.

Lemma at_range p c : at_ p c -> 0 <= c_pos c <= len.
Proof. intros [H _]. exact H. Qed.

Lemma at_cons x p c : at_ (x :: p) c -> c_last c = Some x /\ p = skipn (Z.to_nat (c_pos c)) src.
Proof.
  intros [_ H]. destruct (c_last c); [|destruct H; discriminate]. injection H as <- ->. auto.
Qed.

Lemma at_nil c : at_ [] c -> c_last c = None.
Proof. intros [_ H]. destruct (c_last c); [discriminate|reflexivity]. Qed.

(** Consume one pending character. *)
Lemma advance x p c : at_ (x :: p) c -> exists c', c_get_char src c = Ok c' /\ at_ p c' /\ keep c c'.
Proof.
  intros H. destruct (at_cons _ _ _ H) as [_ ->]. apply get_char_ok. apply (at_range _ _ H).
Qed.

Lemma advance_nil c : at_ [] c -> exists c', c_get_char src c = Ok c' /\ at_ [] c' /\ keep c c'.
Proof.
  intros [H1 H2]. destruct (c_last c); [discriminate|]. destruct H2 as [_ H2].
  destruct (get_char_ok c H1) as (c' & E & A & K). exists c'. split; [exact E|]. split; [|exact K].
  replace (skipn (Z.to_nat (c_pos c)) src) with (@nil ascii) in A; [exact A|].
  symmetry. apply skipn_all2. lia.
Qed.

Lemma at_upd p c c' : at_ p c -> c_pos c' = c_pos c -> c_last c' = c_last c -> at_ p c'.
Proof. unfold at_. intros H -> ->. exact H. Qed.

Fixpoint bl (p : text) : text * Z :=
  match p with
  | [] => ([], 0)
  | c :: r => if is_space c then let '(q, d) := bl r in (q, d + if ceqb c ch_nl then 1 else 0)
              else (p, 0)
  end.

Fixpoint cm (p : text) : text :=
  match p with [] => [] | c :: r => if ceqb c ch_nl then p else cm r end.

Definition starts_comment (p : text) : bool :=
  match p with c :: d :: _ => ceqb c "/" && ceqb d "/" | _ => false end.

Lemma triv_cm p : triv true p =
  match cm p with [] => ([], 0) | _ :: r => let '(q, d) := triv false r in (q, d + 1) end.
Proof.
  induction p as [|c r IH]; [reflexivity|]. cbn [triv cm].
  destruct (ceqb c ch_nl) eqn:E; cbn [negb].
  - destruct (triv false r) as [q d]. reflexivity.
  - rewrite IH. destruct (cm r) as [|x y]; [reflexivity|]. destruct (triv false y) as [q d].
    f_equal. lia.
Qed.

Lemma slash_not_space : is_space "/"%char = false.
Proof. reflexivity. Qed.

Lemma triv_bl p : triv false p =
  let '(q, d) := bl p in
  if starts_comment q then
    match cm q with [] => ([], d) | _ :: r => let '(q', d') := triv false r in (q', d' + 1 + d) end
  else (q, d).
Proof.
  induction p as [|c r IH]; [reflexivity|]. cbn [bl]. destruct (is_space c) eqn:Es.
  - cbn [triv]. rewrite Es. rewrite IH. destruct (bl r) as [q d].
    destruct (starts_comment q); [|reflexivity].
    destruct (cm q) as [|x y]; [f_equal; lia|]. destruct (triv false y) as [q' d']. f_equal. lia.
  - cbn [starts_comment]. destruct r as [|d r].
    + cbn [triv]. rewrite Es. reflexivity.
    + destruct (ceqb c "/" && ceqb d "/") eqn:Ec.
      * rewrite (triv_comment c d r Es Ec). rewrite triv_cm.
        apply andb_prop in Ec as [E1 _]. apply Ascii.eqb_eq in E1. subst c.
        replace (cm ("/"%char :: d :: r)) with (cm (d :: r)) by reflexivity.
        destruct (cm (d :: r)) as [|x y]; [reflexivity|]. destruct (triv false y) as [q d'].
        rewrite Z.add_0_r. reflexivity.
      * cbn [triv]. rewrite Es, Ec. reflexivity.
Qed.

Definition keep_but_line (c c' : clex) : Prop :=
  c_lexeme c' = c_lexeme c /\ c_b c' = c_b c /\ c_i c' = c_i c /\ c_f c' = c_f c.

Lemma blanks_ok : forall fuel p c, at_ p c -> (List.length p < fuel)%nat ->
  exists c', c_blanks src fuel c = Ok c' /\ at_ (fst (bl p)) c' /\ keep_but_line c c' /\
    c_line c' = c_line c + snd (bl p).
Proof.
  induction fuel as [|fuel IH]; intros p c H Hf; [lia|]. cbn [c_blanks].
  destruct p as [|x p].
  - rewrite (at_nil _ H). cbn [test]. exists c. cbn. repeat split; auto; try apply H. lia.
  - destruct (at_cons _ _ _ H) as [L _]. rewrite L. cbn [test bl]. destruct (is_space x).
    + cbn [is_c]. set (c1 := if ceqb x ch_nl then set_line c (c_line c + 1) else c).
      assert (H1 : at_ (x :: p) c1)
        by (apply (at_upd _ c); [exact H| |]; unfold c1; destruct (ceqb x ch_nl); reflexivity).
      destruct (advance _ _ _ H1) as (c2 & -> & A2 & K2). cbn [obind].
      cbn [List.length] in Hf. destruct (IH p c2 A2 ltac:(lia)) as (c3 & E3 & A3 & K3 & L3).
      exists c3. destruct (bl p) as [q d]. cbn [fst snd] in *. split; [exact E3|]. split; [exact A3|].
      destruct K2 as (k1 & k2 & k3 & k4 & k5). destruct K3 as (k6 & k7 & k8 & k9).
      assert (X : c_line c1 = c_line c + (if ceqb x ch_nl then 1 else 0) /\ c_lexeme c1 = c_lexeme c /\
                  c_b c1 = c_b c /\ c_i c1 = c_i c /\ c_f c1 = c_f c)
        by (unfold c1; destruct (ceqb x ch_nl); cbn; repeat split; lia).
      destruct X as (x1 & x2 & x3 & x4 & x5).
      split; [repeat split; congruence|]. rewrite L3, k1, x1. lia.
    + exists c. cbn [fst snd]. repeat split; auto; try apply H. lia.
Qed.

Lemma comment_ok : forall fuel p c, at_ p c -> (List.length p < fuel)%nat ->
  exists c', c_comment src fuel c = Ok c' /\ at_ (cm p) c' /\ keep c c'.
Proof.
  induction fuel as [|fuel IH]; intros p c H Hf; [lia|]. cbn [c_comment].
  destruct p as [|x p].
  - rewrite (at_nil _ H). exists c. split; [reflexivity|]. split; [exact H|repeat split].
  - destruct (at_cons _ _ _ H) as [L _]. rewrite L. cbn [cm]. destruct (ceqb x ch_nl).
    + exists c. split; [reflexivity|]. split; [exact H|repeat split].
    + destruct (advance _ _ _ H) as (c2 & -> & A2 & K2). cbn [obind].
      cbn [List.length] in Hf. destruct (IH p c2 A2 ltac:(lia)) as (c3 & E3 & A3 & K3).
      exists c3. split; [exact E3|]. split; [exact A3|]. unfold keep in *. intuition congruence.
Qed.

(** Fields after collecting lexeme characters. *)
Definition lexed (c c' : clex) (s : text) : Prop :=
  c_line c' = c_line c /\ c_lexeme c' = Some s /\ c_b c' = c_b c /\ c_i c' = c_i c /\ c_f c' = c_f c.

Lemma push_at p c o : at_ p c -> at_ p (c_push c o).
Proof. intros H. apply (at_upd _ c); auto. Qed.

Lemma ident_ok : forall fuel p c s, at_ p c -> c_lexeme c = Some s -> (List.length p < fuel)%nat ->
  exists c', c_ident src fuel c = Ok c' /\ at_ (snd (span identc p)) c' /\
    lexed c c' (s ++ fst (span identc p)).
Proof.
  induction fuel as [|fuel IH]; intros p c s H Hs Hf; [lia|]. cbn [c_ident].
  destruct p as [|x p].
  - rewrite (at_nil _ H). cbn. exists c. rewrite app_nil_r. repeat split; auto; apply H.
  - destruct (at_cons _ _ _ H) as [L _]. rewrite L. cbn [test is_c span].
    change (is_alnum x || ceqb x "_") with (identc x). destruct (identc x).
    + destruct (advance _ _ _ (push_at _ _ (Some x) H)) as (c2 & -> & A2 & K2). cbn [obind].
      cbn [List.length] in Hf. destruct K2 as (k1 & k2 & k3 & k4 & k5).
      cbn [c_push set_lexeme c_lexeme c_line c_b c_i c_f] in *. rewrite Hs in k2.
      destruct (IH p c2 (s ++ [x]) A2 k2 ltac:(lia)) as (c3 & E3 & A3 & K3).
      exists c3. split; [exact E3|]. destruct (span identc p) as [a b]. cbn [fst snd] in *.
      split; [exact A3|]. rewrite <- app_assoc in K3. unfold lexed in *. intuition congruence.
    + exists c. cbn [fst snd]. rewrite app_nil_r. repeat split; auto; apply H.
Qed.

Lemma number_ok : forall fuel p hx fl c s, at_ p c -> c_lexeme c = Some s -> (List.length p < fuel)%nat ->
  exists c', c_number src fuel hx fl c =
      Ok (c', snd (fst (fst (anum hx fl p))), snd (fst (anum hx fl p))) /\
    at_ (snd (anum hx fl p)) c' /\ lexed c c' (s ++ fst (fst (fst (anum hx fl p)))).
Proof.
  induction fuel as [|fuel IH]; intros p hx fl c s H Hs Hf; [lia|]. cbn [c_number].
  destruct p as [|x p].
  - rewrite (at_nil _ H). cbn. rewrite andb_false_r. exists c. rewrite app_nil_r. repeat split; auto; apply H.
  - destruct (at_cons _ _ _ H) as [L _]. rewrite L. cbn [test is_c anum].
    fold (numc hx fl x). destruct (numc hx fl x).
    + destruct (advance _ _ _ (push_at _ _ (Some x) H)) as (c2 & -> & A2 & K2). cbn [obind].
      cbn [List.length] in Hf. destruct K2 as (k1 & k2 & k3 & k4 & k5).
      cbn [c_push set_lexeme c_lexeme c_line c_b c_i c_f] in *. rewrite Hs in k2.
      set (h1 := if ceqb x "x" then true else hx).
      set (f1 := if ceqb x "x" then fl else if ceqb x "." then true else fl).
      destruct (IH p h1 f1 c2 (s ++ [x]) A2 k2 ltac:(lia)) as (c3 & E3 & A3 & K3).
      exists c3. rewrite E3. destruct (anum h1 f1 p) as [[[a h] f] b]. cbn [fst snd] in *.
      split; [reflexivity|].
      split; [exact A3|]. rewrite <- app_assoc in K3. unfold lexed in *. intuition congruence.
    + exists c. cbn [fst snd]. rewrite app_nil_r. repeat split; auto; apply H.
Qed.

(** CHECK_ESCAPE on a pending text *)
Lemma escape_plain x p c : at_ (x :: p) c -> ceqb x ch_bslash = false -> c_escape src c = Ok c.
Proof. intros H E. destruct (at_cons _ _ _ H) as [L _]. unfold c_escape. rewrite L. cbn [is_c]. rewrite E. reflexivity. Qed.

Lemma escape_nil c : at_ [] c -> c_escape src c = Ok c.
Proof. intros H. unfold c_escape. rewrite (at_nil _ H). reflexivity. Qed.

Lemma escape_ok x p c : at_ (x :: p) c -> ceqb x ch_bslash = true ->
  exists c', c_escape src c = Ok c' /\ keep c c' /\
    match p with
    | e :: r => c_last c' = Some (escape e) /\ at_ (escape e :: r) c'
    | [] => at_ [] c'
    end.
Proof.
  intros H E. destruct (at_cons _ _ _ H) as [L _]. unfold c_escape. rewrite L. cbn [is_c]. rewrite E.
  destruct (advance _ _ _ H) as (c1 & -> & A1 & K1). cbn [obind].
  eexists; split; [reflexivity|]. split; [exact K1|]. destruct p as [|e r].
  - rewrite (at_nil _ A1). apply (at_upd _ c1); [exact A1|reflexivity|]. rewrite (at_nil _ A1). reflexivity.
  - destruct (at_cons _ _ _ A1) as [L1 E1]. rewrite L1. cbn [option_map]. split; [reflexivity|].
    split; cbn; [apply (at_range _ _ A1)|]. rewrite E1. reflexivity.
Qed.

Lemma string_ok : forall fuel p c s r t, at_ p c -> c_lexeme c = Some s -> (List.length p < fuel)%nat ->
  astr p = Some (t, r) ->
  exists c', c_string src fuel c = Ok c' /\ at_ (ch_dquote :: r) c' /\ lexed c c' (s ++ t).
Proof.
  induction fuel as [|fuel IH]; intros p c s r t H Hs Hf Ha; [lia|]. cbn [c_string].
  destruct p as [|x p]; [discriminate|]. cbn [astr] in Ha.
  destruct (at_cons _ _ _ H) as [L _]. rewrite L. cbn [is_c].
  destruct (ceqb x ch_dquote) eqn:Eq.
  - injection Ha as <- <-. apply Ascii.eqb_eq in Eq. subst x. exists c. rewrite app_nil_r.
    repeat split; auto; apply H.
  - cbn [List.length] in Hf. destruct (ceqb x ch_bslash) eqn:Eb.
    + destruct p as [|e p']; [discriminate|]. destruct (astr p') as [[t' r']|] eqn:Ea; [|discriminate].
      injection Ha as <- <-.
      destruct (escape_ok _ _ _ H Eb) as (c1 & -> & K1 & L1 & A1). cbn [obind]. rewrite L1.
      destruct (advance _ _ _ (push_at _ _ (Some (escape e)) A1)) as (c2 & -> & A2 & K2). cbn [obind].
      destruct K2 as (k1 & k2 & k3 & k4 & k5). destruct K1 as (j1 & j2 & j3 & j4 & j5).
      cbn [c_push set_lexeme c_lexeme c_line c_b c_i c_f] in *. rewrite j2, Hs in k2.
      cbn [List.length] in Hf.
      destruct (IH p' c2 (s ++ [escape e]) r' t' A2 k2 ltac:(lia) Ea) as (c3 & E3 & A3 & K3).
      exists c3. split; [exact E3|]. split; [exact A3|]. rewrite <- app_assoc in K3.
      unfold lexed in *. intuition congruence.
    + destruct (astr p) as [[t' r']|] eqn:Ea; [|discriminate]. injection Ha as <- <-.
      rewrite (escape_plain _ _ _ H Eb). cbn [obind]. rewrite L.
      destruct (advance _ _ _ (push_at _ _ (Some x) H)) as (c2 & -> & A2 & K2). cbn [obind].
      destruct K2 as (k1 & k2 & k3 & k4 & k5).
      cbn [c_push set_lexeme c_lexeme c_line c_b c_i c_f] in *. rewrite Hs in k2.
      destruct (IH p c2 (s ++ [x]) r' t' A2 k2 ltac:(lia) Ea) as (c3 & E3 & A3 & K3).
      exists c3. split; [exact E3|]. split; [exact A3|]. rewrite <- app_assoc in K3.
      unfold lexed in *. intuition congruence.
Qed.

(** On an unclosed literal the loop never ends, whatever the fuel. *)
Lemma string_hang : forall fuel p c, at_ p c -> astr p = None -> c_string src fuel c = Fuel.
Proof.
  induction fuel as [|fuel IH]; intros p c H Ha; [reflexivity|]. cbn [c_string].
  destruct p as [|x p].
  - rewrite (at_nil _ H). cbn [is_c]. rewrite (escape_nil _ H). cbn [obind].
    rewrite (at_nil _ H). destruct (advance_nil _ (push_at _ _ None H)) as (c2 & -> & A2 & K2). cbn [obind].
    eapply IH; [exact A2|reflexivity].
  - cbn [astr] in Ha. destruct (at_cons _ _ _ H) as [L _]. rewrite L. cbn [is_c].
    destruct (ceqb x ch_dquote); [discriminate|].
    destruct (ceqb x ch_bslash) eqn:Eb.
    + destruct (escape_ok _ _ _ H Eb) as (c1 & -> & K1 & A1). cbn [obind]. destruct p as [|e p'].
      * destruct (advance_nil _ (push_at _ _ (c_last c1) A1)) as (c2 & -> & A2 & K2). cbn [obind].
        eapply IH; [exact A2|reflexivity].
      * destruct A1 as [L1 A1].
        destruct (advance _ _ _ (push_at _ _ (c_last c1) A1)) as (c2 & -> & A2 & K2). cbn [obind].
        destruct (astr p') as [[t' r']|] eqn:Ea; [discriminate|]. eapply IH; eauto.
    + rewrite (escape_plain _ _ _ H Eb). cbn [obind].
      destruct (advance _ _ _ (push_at _ _ (c_last c) H)) as (c2 & -> & A2 & K2). cbn [obind].
      destruct (astr p) as [[t' r']|] eqn:Ea; [discriminate|]. eapply IH; eauto.
Qed.

Lemma peek_ok x p c : at_ (x :: p) c -> c_peek src c = Ok (match p with [] => None | y :: _ => Some y end).
Proof.
  intros H. destruct (at_cons _ _ _ H) as [_ E]. unfold c_peek. rewrite (rd_ok _ (at_range _ _ H)).
  pose proof (skipn_nth src (Z.to_nat (c_pos c))) as N. rewrite <- E in N.
  destruct (nth_error src _); destruct N as [-> _]; reflexivity.
Qed.

Lemma peek2_ok x p c : at_ (x :: p) c ->
  c_peek2 src c = Ok (match p with _ :: y :: _ => Some y | _ => None end).
Proof.
  intros H. destruct (at_cons _ _ _ H) as [_ E]. pose proof (at_range _ _ H) as R.
  unfold c_peek2. rewrite (rd_ok _ R). cbn [obind].
  pose proof (skipn_nth src (Z.to_nat (c_pos c))) as N. rewrite <- E in N.
  destruct (nth_error src _) as [y|]; destruct N as [N1 N2]; [|rewrite N1; reflexivity].
  rewrite rd_ok by lia. replace (Z.to_nat (c_pos c + 1)) with (S (Z.to_nat (c_pos c))) by lia.
  pose proof (skipn_nth src (S (Z.to_nat (c_pos c)))) as M. subst p. rewrite N1.
  destruct (nth_error src (S _)); destruct M as [-> _]; reflexivity.
Qed.

Lemma match2_ok t x p c : at_ (x :: p) c ->
  c_match2 src t c = Ok (match p with y :: _ => find2 t x y | [] => None end).
Proof.
  intros H. destruct (at_cons _ _ _ H) as [L _]. pose proof (peek_ok _ _ _ H) as Pk.
  induction t as [|[[a b] k] t IH]; cbn [c_match2 find2].
  - destruct p; reflexivity.
  - rewrite L. cbn [is_c]. destruct (ceqb x a) eqn:E; cbn [andb].
    + rewrite Pk. cbn [obind]. destruct p as [|y p]; cbn [is_c].
      * exact IH.
      * destruct (ceqb y b); [reflexivity|exact IH].
    + rewrite IH. destruct p; reflexivity.
Qed.

Lemma match1_ok t x p c : at_ (x :: p) c -> c_match1 t c = find1 t x.
Proof.
  intros H. destruct (at_cons _ _ _ H) as [L _].
  induction t as [|[a k] t IH]; cbn [c_match1 find1]; [reflexivity|].
  rewrite L. cbn [is_c]. rewrite IH. reflexivity.
Qed.

(** [c'] is [c] after a token. *)
Definition c_after (c : clex) (pl : payload) (p' : text) (d : Z) (c' : clex) : Prop :=
  at_ p' c' /\ c_line c' = c_line c + d /\
  c_lexeme c' = orelseo (py_lexeme pl) (c_lexeme c) /\
  c_b c' = orelse (py_b pl) (c_b c) /\ c_i c' = orelse (py_i pl) (c_i c) /\
  c_f c' = orelse (py_f pl) (c_f c).

Ltac cfin := unfold c_after, keep, keep_but_line, lexed in *;
  cbn [set_lexeme set_pos set_i set_f set_b set_last set_line c_reset c_lexeme c_line c_b c_i c_f c_pos c_last
       py_lexeme py_b py_i py_f orelse orelseo pay_lex] in *.

Lemma skip_k x p c k l : at_ (x :: p) c -> (k <= List.length p)%nat ->
  exists c', c_get_char src (set_pos (set_lexeme c l) (c_pos c + Z.of_nat k)) = Ok c' /\
    at_ (skipn k p) c' /\ lexed c c' l.
Proof.
  intros H Hk. destruct (at_cons _ _ _ H) as [_ E]. pose proof (at_range _ _ H) as R.
  assert (Lp : List.length p = (List.length src - Z.to_nat (c_pos c))%nat) by (rewrite E; apply skipn_length).
  destruct (get_char_ok (set_pos (set_lexeme c l) (c_pos c + Z.of_nat k))) as (c' & Ec & A & K); [cbn; lia|].
  exists c'. split; [exact Ec|]. cfin. split; [|intuition].
  replace (skipn k p) with (skipn (Z.to_nat (c_pos c + Z.of_nat k)) src); [exact A|].
  rewrite E. assert (G : forall (s : text) n m, skipn n (skipn m s) = skipn (m + n)%nat s).
  { clear. intros s n m. revert s. induction m as [|m IH]; intros s; [reflexivity|].
    destruct s; [destruct n; reflexivity|]. apply IH. }
  rewrite G. f_equal. lia.
Qed.

Lemma cm_length p : (List.length (cm p) <= List.length p)%nat.
Proof. induction p as [|c p IH]; cbn [cm]; [lia|]. destruct (ceqb c ch_nl); cbn [List.length] in *; lia. Qed.
Lemma bl_length p : (List.length (fst (bl p)) <= List.length p)%nat.
Proof.
  induction p as [|c p IH]; cbn [bl]; [cbn; lia|]. destruct (is_space c); [|cbn; lia].
  destruct (bl p) as [q d]. cbn [fst List.length] in *. lia.
Qed.

Lemma bl_head p : match fst (bl p) with x :: _ => is_space x = false | [] => True end.
Proof.
  induction p as [|c p IH]; cbn [bl]; [exact I|]. destruct (is_space c) eqn:E; [|cbn; exact E].
  destruct (bl p) as [q d]. exact IH.
Qed.

Lemma cm_head p : match cm p with x :: _ => x = ch_nl | [] => True end.
Proof.
  induction p as [|c p IH]; cbn [cm]; [exact I|]. destruct (ceqb c ch_nl) eqn:E; [|exact IH].
  apply Ascii.eqb_eq. exact E.
Qed.

Lemma c_get_token_ok : forall fuel p c, at_ p c -> (List.length p < fuel)%nat ->
  match alex p with
  | (None, _) => c_get_token src fuel c = Fuel
  | (Some (k, pl, p'), d) => exists c', c_get_token src fuel c = Ok (k, c') /\ c_after c pl p' d c'
  end.
Proof.
  induction fuel as [|fuel IH]; intros p c H Hf; [lia|].
  remember (S fuel) as F. unfold alex. rewrite triv_bl.
  destruct (blanks_ok F p c H Hf) as (c1 & E1 & A1 & K1 & L1).
  rewrite HeqF. cbn [c_get_token]. rewrite <- HeqF. rewrite E1. cbn [obind].
  pose proof (bl_length p) as BL. destruct (bl p) as [q d]. cbn [fst snd] in *.
  destruct q as [|x q].
  { rewrite (at_nil _ A1). cbn [starts_comment acore]. eexists; split; [reflexivity|]. cfin.
    repeat split; try apply A1; try lia; intuition. }
  destruct (at_cons _ _ _ A1) as [Lx _]. rewrite Lx.
  assert (PK : (if ceqb x "/" then c_peek src c1 else Ok None) =
               Ok (if ceqb x "/" then match q with [] => None | y :: _ => Some y end else None)).
  { destruct (ceqb x "/"); [|reflexivity]. apply (peek_ok _ _ _ A1). }
  rewrite PK. cbn [obind].
  assert (SC : starts_comment (x :: q) =
     ceqb x "/" && is_c (if ceqb x "/" then match q with [] => None | y :: _ => Some y end else None) "/").
  { cbn [starts_comment]. destruct q as [|y q]; destruct (ceqb x "/"); reflexivity. }
  rewrite <- SC. destruct (starts_comment (x :: q)) eqn:ESC.
  { (* comment *)
    destruct (comment_ok F (x :: q) c1 A1 ltac:(lia)) as (c2 & -> & A2 & K2). cbn [obind].
    pose proof (cm_length (x :: q)) as CL.
    destruct (cm (x :: q)) as [|y r] eqn:Ecm.
    - rewrite (at_nil _ A2). cbn [obind].
      specialize (IH [] c2 A2 ltac:(subst F; cbn [List.length] in *; lia)). cbn in IH.
      destruct IH as (c3 & E3 & A3). cbn [acore]. exists c3. split; [exact E3|]. cfin. intuition (try congruence).
      lia.
    - destruct (at_cons _ _ _ A2) as [L2 _]. rewrite L2. cbn [obind].
      destruct (advance _ _ _ A2) as (c3 & -> & A3 & K3). cbn [obind].
      set (c4 := set_line c3 (c_line c3 + 1)).
      assert (A4 : at_ r c4) by (apply (at_upd _ c3); auto).
      specialize (IH r c4 A4 ltac:(subst F; cbn [List.length] in *; lia)). unfold alex in IH.
      destruct (triv false r) as [q' d']. destruct (acore q') as [[[k pl] p']|]; [|exact IH].
      destruct IH as (c5 & E5 & A5). exists c5. split; [exact E5|]. unfold c4 in *. cfin. 
      destruct A5 as (a1 & a2 & a3 & a4 & a5 & a6). destruct K3 as (b1 & b2 & b3 & b4 & b5).
      destruct K2 as (e1 & e2 & e3 & e4 & e5). destruct K1 as (f1 & f2 & f3 & f4).
      rewrite a2, a3, a4, a5, a6, b1, b2, b3, b4, b5, e1, e2, e3, e4, e5, f1, f2, f3, f4, L1.
      repeat split; try apply a1; lia. }
  (* a token proper, starting at x *)
  assert (Tok : forall pl p' c', c_after c1 pl p' 0 c' -> c_after c pl p' d c').
  { intros pl p' c' A. cfin. destruct A as (a1 & a2 & a3 & a4 & a5 & a6). destruct K1 as (f1 & f2 & f3 & f4).
    rewrite a2, a3, a4, a5, a6, f1, f2, f3, f4, L1. repeat split; try apply a1; lia. }
  match goal with |- context [?R = Fuel] => 
  assert (Goal2 : match acore (x :: q) with
    | None => R = Fuel
    | Some (k, pl, p') => exists c', R = Ok (k, c') /\ c_after c1 pl p' 0 c' end -> 
    match acore (x :: q) with
    | None => R = Fuel
    | Some (k, pl, p') => exists c', R = Ok (k, c') /\ c_after c pl p' d c' end) end.
  { intros G. destruct (acore (x :: q)) as [[[k pl] p']|]; [|exact G].
    destruct G as (c' & G1 & G2). exists c'. split; [exact G1|]. apply Tok; exact G2. }
  apply Goal2. clear Goal2 Tok.
  unfold acore.
  assert (E1' : (if ceqb x "." then c_peek src c1 else Ok None) =
                Ok (if ceqb x "." then match q with [] => None | y :: _ => Some y end else None)).
  { destruct (ceqb x "."); [|reflexivity]. apply (peek_ok _ _ _ A1). }
  rewrite E1'. cbn [obind].
  set (e1 := if ceqb x "." then match q with [] => None | y :: _ => Some y end else None).
  assert (E2' : (if ceqb x "." && is_c e1 "." then c_peek2 src c1 else Ok None) =
     Ok (if ceqb x "." && is_c e1 "." then match q with _ :: y :: _ => Some y | _ => None end else None)).
  { destruct (ceqb x "." && is_c e1 "."); [|reflexivity]. apply (peek2_ok _ _ _ A1). }
  rewrite E2'. cbn [obind].
  assert (EE : is_ellipsis (x :: q) = ceqb x "." && is_c e1 "." &&
     is_c (if ceqb x "." && is_c e1 "." then match q with _ :: y :: _ => Some y | _ => None end else None) ".").
  { unfold e1, is_ellipsis. destruct (ceqb x "."); cbn [andb].
    - destruct q as [|y [|z q]]; cbn [is_c]; try reflexivity.
      + destruct (ceqb y "."); reflexivity.
      + destruct (ceqb y "."); reflexivity.
    - destruct q as [|y [|z q]]; reflexivity. }
  rewrite <- EE. clear E1' E2' EE e1 PK SC. destruct (is_ellipsis (x :: q)) eqn:Eell.
  { destruct q as [|y [|z q]]; try discriminate Eell.
    destruct (skip_k _ _ _ 2 (text_of "...") A1 ltac:(cbn [List.length]; lia)) as (c2 & E2 & A2 & K2).
    cbn [set_lexeme c_pos]. change (Z.of_nat 2) with 2 in E2.
    unfold set_lexeme in E2 |- *. cbn [c_pos] in *. rewrite E2. cbn [obind].
    eexists; split; [reflexivity|]. cbn [skipn] in A2 |- *. cfin. intuition (try lia). }
  rewrite (match2_ok match2_table _ _ _ A1). cbn [obind].
  assert (M2 : m2 (x :: q) = match q with y :: _ => find2 match2_table x y | [] => None end) by (destruct q; reflexivity).
  rewrite <- M2. destruct (m2 (x :: q)) as [k|].
  { destruct q as [|y q]; [discriminate|].
    rewrite (peek_ok _ _ _ A1). cbn [obind the].
    destruct (skip_k _ _ _ 1 [x; y] A1 ltac:(cbn [List.length]; lia)) as (c2 & E2 & A2 & K2).
    change (Z.of_nat 1) with 1 in E2. unfold set_lexeme in E2 |- *. cbn [c_pos] in *. rewrite E2. cbn [obind].
    eexists; split; [reflexivity|]. cbn [skipn firstn] in A2 |- *. cfin. intuition (try lia). }
  rewrite (match1_ok match1_table _ _ _ A1). destruct (find1 match1_table x) as [k|].
  { destruct (skip_k _ _ _ 0 [x] A1 ltac:(lia)) as (c2 & E2 & A2 & K2).
    replace (set_pos (set_lexeme c1 [x]) (c_pos c1 + Z.of_nat 0)) with (set_lexeme c1 [x]) in E2
      by (unfold set_pos, set_lexeme; cbn; rewrite Z.add_0_r; reflexivity).
    rewrite E2. cbn [obind]. eexists; split; [reflexivity|]. cbn [skipn] in A2. cfin. intuition (try lia). }
  assert (A1r : at_ (x :: q) (c_reset c1)) by (apply (at_upd _ c1); auto).
  destruct (is_alpha x).
  { destruct (ident_ok F _ _ [] A1r eq_refl ltac:(lia)) as (c2 & -> & A2 & K2). cbn [obind app] in *.
    destruct (span identc (x :: q)) as [s r]. cbn [fst snd] in *.
    assert (Ls : lexeme_of c2 = s) by (unfold lexeme_of; destruct K2 as (_ & -> & _); reflexivity).
    rewrite Ls. eexists; split; [reflexivity|]. cfin. destruct K2 as (k1 & k2 & k3 & k4 & k5).
    destruct (find_kw keyword_table s); cbn; repeat split; try apply A2; auto; lia. }
  destruct (is_digit x).
  { destruct (number_ok F _ false false _ [] A1r eq_refl ltac:(lia)) as (c2 & -> & A2 & K2). cbn [obind app] in *.
    destruct (anum false false (x :: q)) as [[[s h] f] r]. cbn [fst snd] in *.
    assert (Ls : lexeme_of c2 = s) by (unfold lexeme_of; destruct K2 as (_ & -> & _); reflexivity).
    rewrite Ls. cfin. destruct K2 as (k1 & k2 & k3 & k4 & k5).
    unfold int_value. destruct f; [|destruct h]; eexists; (split; [reflexivity|]); cbn; repeat split; try apply A2; auto; lia. }
  destruct (ceqb x ch_quote).
  { unfold achar. destruct (advance _ _ _ A1) as (c2 & -> & A2 & K2). cbn [obind].
    destruct q as [|y q].
    { rewrite (escape_nil _ A2). cbn [obind]. rewrite (at_nil _ A2).
      assert (A3 : at_ [] (set_i c2 0)) by (apply (at_upd _ c2); auto).
      destruct (advance_nil _ A3) as (c4 & -> & A4 & K4). cbn [obind]. rewrite (at_nil _ A4). cbn [is_c].
      eexists; split; [reflexivity|]. cfin; intuition (try congruence; try lia). }
    assert (Q : exists c3, c_escape src c2 = Ok c3 /\ keep c2 c3 /\
              match (if ceqb y ch_bslash then match q with [] => (None, []) | e :: r => (Some (escape e), r) end
                     else (Some y, q)) with
              | (Some v, r) => c_last c3 = Some v /\ at_ (v :: r) c3
              | (None, r) => r = [] /\ at_ [] c3
              end).
    { destruct (ceqb y ch_bslash) eqn:Eb.
      - destruct (escape_ok _ _ _ A2 Eb) as (c3 & E3 & K3 & A3). exists c3. split; [exact E3|]. split; [exact K3|].
        destruct q as [|e r]; auto.
      - exists c2. split; [apply (escape_plain _ _ _ A2 Eb)|]. split; [repeat split|].
        split; [apply (at_cons _ _ _ A2)|exact A2]. }
    destruct Q as (c3 & -> & K3 & Q). cbn [obind].
    destruct (if ceqb y ch_bslash then _ else _) as [v r].
    destruct v as [v|].
    - destruct Q as [L3 A3]. rewrite L3.
      assert (A3' : at_ (v :: r) (set_i c3 (char_val v))) by (apply (at_upd _ c3); auto).
      destruct (advance _ _ _ A3') as (c4 & -> & A4 & K4). cbn [obind].
      destruct r as [|z r].
      + rewrite (at_nil _ A4). cbn [is_c]. eexists; split; [reflexivity|]. cfin; intuition (try congruence; try lia).
      + destruct (at_cons _ _ _ A4) as [L4 _]. rewrite L4. cbn [is_c]. destruct (ceqb z ch_quote).
        * destruct (advance _ _ _ A4) as (c5 & -> & A5 & K5). cbn [obind].
          eexists; split; [reflexivity|]. cfin; intuition (try congruence; try lia).
        * eexists; split; [reflexivity|]. cfin; intuition (try congruence; try lia).
    - destruct Q as [-> A3]. rewrite (at_nil _ A3).
      assert (A3' : at_ [] (set_i c3 0)) by (apply (at_upd _ c3); auto).
      destruct (advance_nil _ A3') as (c4 & -> & A4 & K4). cbn [obind]. rewrite (at_nil _ A4). cbn [is_c].
      eexists; split; [reflexivity|]. cfin; intuition (try congruence; try lia). }
  destruct (ceqb x ch_dquote).
  { destruct (advance _ _ _ A1r) as (c2 & -> & A2 & K2). cbn [obind].
    destruct K2 as (k1 & k2 & k3 & k4 & k5). cbn [c_reset set_lexeme c_lexeme] in k2.
    destruct (astr q) as [[s r]|] eqn:Ea.
    - destruct (string_ok F _ _ [] _ _ A2 k2 ltac:(cbn [List.length] in *; lia) Ea) as (c3 & -> & A3 & K3). cbn [obind app] in *.
      destruct (advance _ _ _ A3) as (c4 & -> & A4 & K4). cbn [obind].
      eexists; split; [reflexivity|]. cfin; intuition (try congruence; try lia).
    - rewrite (string_hang F _ _ A2 Ea). reflexivity. }
  eexists; split; [reflexivity|]. cfin; intuition (try congruence; try lia).
Qed.
End Src.
