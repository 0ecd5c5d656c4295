From Verif Require Import Base Float64 Token Lexer LexerAbs LexerC LexerCProofs LexerSpec LexerProofs Pos PosProofs.
Local Open Scope Z_scope.
Notation slen s := (Z.of_nat (List.length s)).

Lemma achar_suffix rest k pl r : achar rest = (k, pl, r) -> exists x, rest = x ++ r.
Proof.
  unfold achar. intros H.
  destruct rest as [|c1 r1]; [injection H as _ _ <-; exists []; reflexivity|].
  destruct (ceqb c1 ch_bslash).
  - destruct r1 as [|e r1]; [injection H as _ _ <-; exists [c1]; reflexivity|].
    destruct r1 as [|q r3]; [injection H as _ _ <-; exists [c1; e]; reflexivity|].
    destruct (ceqb q ch_quote); injection H as _ _ <-; [exists [c1; e; q]|exists [c1; e]]; reflexivity.
  - destruct r1 as [|q r3]; [injection H as _ _ <-; exists [c1]; reflexivity|].
    destruct (ceqb q ch_quote); injection H as _ _ <-; [exists [c1; q]|exists [c1]]; reflexivity.
Qed.

(** Kinds other than the end and errors are proper. *)
Lemma proper_dec k : {proper k} + {k = TEOF} + {k = LEXER_ERROR}.
Proof. unfold proper. destruct k; auto; left; left; split; discriminate. Qed.

Lemma acore_error p pl r : acore p = Some (LEXER_ERROR, pl, r) -> p <> [] /\ exists x, p = x ++ r.
Proof.
  intros H. destruct p as [|c rest]; [discriminate H|]. split; [discriminate|]. unfold acore in H.
  destruct (is_ellipsis (c :: rest)); [discriminate H|].
  destruct (m2 (c :: rest)) eqn:E2.
  { destruct rest as [|d rest]; [discriminate|]. apply find2_kind in E2. injection H as H _ _. destruct E2 as ((_ & E) & _). congruence. }
  destruct (find1 match1_table c) eqn:E1.
  { apply find1_props in E1. injection H as H _ _. destruct E1 as (_ & _ & (_ & E) & _). congruence. }
  destruct (is_alpha c).
  { destruct (span identc (c :: rest)) as [s r']. injection H as H _ _. destruct (kw_kind s) as [[_ K] _]; destruct (K H). }
  destruct (is_digit c).
  { destruct (anum false false (c :: rest)) as [[[s h] f] r']. destruct f; discriminate H. }
  destruct (ceqb c ch_quote).
  { injection H as H. apply achar_suffix in H as [x ->]. exists (c :: x). reflexivity. }
  destruct (ceqb c ch_dquote).
  { destruct (astr rest) as [[s r']|]; discriminate H. }
  injection H as _ <-. exists []. reflexivity.
Qed.

Lemma acore_eof p pl r : acore p = Some (TEOF, pl, r) -> p = [] /\ r = [].
Proof.
  intros H. destruct p as [|c rest]; [injection H as _ <-; auto|]. exfalso. unfold acore in H.
  destruct (is_ellipsis (c :: rest)); [discriminate H|].
  destruct (m2 (c :: rest)) eqn:E2.
  { destruct rest as [|d rest]; [discriminate|]. apply find2_kind in E2. injection H as H _ _. destruct E2 as ((E & _) & _). congruence. }
  destruct (find1 match1_table c) eqn:E1.
  { apply find1_props in E1. injection H as H _ _. destruct E1 as (_ & _ & (E & _) & _). congruence. }
  destruct (is_alpha c).
  { destruct (span identc (c :: rest)) as [s r']. injection H as H _ _. destruct (kw_kind s) as [[K _] _]; destruct (K H). }
  destruct (is_digit c).
  { destruct (anum false false (c :: rest)) as [[[s h] f] r']. destruct f; discriminate H. }
  destruct (ceqb c ch_quote).
  { injection H as H. unfold achar in H.
    repeat (match type of H with context [match ?x with _ => _ end] => destruct x end; try discriminate H). }
  destruct (ceqb c ch_dquote); [destruct (astr rest) as [[s r']|]; discriminate H|discriminate H].
Qed.

(** The gap, the characters and the rest of one token. *)
Lemma alex_split p k pl r d : alex p = (Some (k, pl, r), d) ->
  exists g x, p = g ++ x ++ r /\ Z.of_nat (newlines g) = d /\
    (gap g \/ (k = TEOF /\ last_gap g)) /\ stop (x ++ r) /\
    acore (x ++ r) = Some (k, pl, r) /\
    (k = TEOF -> x = [] /\ r = []) /\
    (k = LEXER_ERROR -> x ++ r <> []) /\
    (proper k -> gap g /\ tok_shape (x ++ r) k pl r x).
Proof.
  intros H. unfold alex in H. destruct (triv false p) as [q d'] eqn:Et. injection H as H <-.
  destruct (triv_split _ _ _ _ (le_n _) Et) as (g & -> & Hd & Hg & Hs). exists g.
  destruct (proper_dec k) as [[Hp| ->]| ->].
  - destruct (acore_shape _ _ _ _ H Hp) as [x Hx]. exists x. destruct Hx as [E E1 E2 E3]. subst q.
    assert (gap g). { destruct Hg as [Hg|[Hg _]]; [exact Hg|]. destruct x; [congruence|discriminate]. }
    split; [reflexivity|]. split; [exact Hd|]. split; [auto|]. split; [exact Hs|]. split; [exact H|].
    split; [intros ->; destruct Hp; congruence|]. split; [intros ->; destruct Hp; congruence|].
    intros _. split; [auto|]. split; auto.
  - destruct (acore_eof _ _ _ H) as [-> ->]. exists []. split; [reflexivity|].
    split; [exact Hd|]. split; [destruct Hg as [Hg|[_ Hg]]; auto|]. split; [exact Hs|]. split; [exact H|].
    split; [auto|]. split; [discriminate|]. intros [Hp _]. congruence.
  - destruct (acore_error _ _ _ H) as [Hne [x ->]]. exists x. split; [reflexivity|].
    split; [exact Hd|]. split; [left; destruct Hg as [Hg|[Hg _]]; [exact Hg|congruence]|].
    split; [exact Hs|]. split; [exact H|]. split; [discriminate|]. split; [auto|]. intros [_ Hp]. congruence.
Qed.

Lemma alex_le p k pl r d : alex p = (Some (k, pl, r), d) -> (List.length r <= List.length p)%nat.
Proof. intros H. destruct (alex_split _ _ _ _ _ H) as (g & x & -> & _). rewrite !app_length. lia. Qed.

Definition fs0 : fields := (None, false, 0, 0).
Notation start src := (" "%char :: src).

Lemma at_init src : at_ src (start src) c_init.
Proof. split; cbn; [lia|reflexivity]. Qed.

Lemma ask_start src n F : (List.length src + 1 < F)%nat ->
  match atoks (slen src) n (start src) 1 fs0 with
  | None => ask src F n c_init = Fuel
  | Some (ts, p', line', fs') =>
      exists c', ask src F n c_init = Ok (ts, c') /\ at_ src p' c' /\ c_line c' = line' /\ fields_of c' = fs'
  end.
Proof.
  intros H. apply (ask_atoks src n (start src) c_init F).
  - apply at_init.
  - cbn [List.length]. lia.
  - intros k pl p1 d q _ E. eapply alex_le; eauto.
Qed.

Lemma ask_any src n F c ts : ask src F n c_init = Ok (ts, c) ->
  exists p' line' fs', atoks (slen src) n (start src) 1 fs0 = Some (ts, p', line', fs') /\
     at_ src p' c /\ c_line c = line' /\ fields_of c = fs'.
Proof.
  intros H. set (F' := (F + List.length src + 2)%nat).
  pose proof (ask_mono src F n c_init ltac:(congruence) F' ltac:(unfold F'; lia)) as M.
  pose proof (ask_start src n F' ltac:(unfold F'; lia)) as S. rewrite M, H in S.
  destruct (atoks (slen src) n (start src) 1 fs0) as [[[[ts' p'] line'] fs']|]; [|discriminate].
  destruct S as (c' & E & A & L & Fs). injection E as <- <-. exists p', line', fs'. auto.
Qed.

(** C10 *)
Lemma lexer_safe_L src F n : ask src F n c_init <> UB /\ ask src F n c_init <> Abort.
Proof.
  set (F' := (F + List.length src + 2)%nat).
  pose proof (ask_start src n F' ltac:(unfold F'; lia)) as S.
  assert (H : ask src F n c_init <> Fuel -> ask src F n c_init = ask src F' n c_init).
  { intros H. symmetry. apply ask_mono; [exact H|unfold F'; lia]. }
  destruct (ask src F n c_init) as [x| | |] eqn:E; try (split; discriminate);
    exfalso; specialize (H ltac:(discriminate)); rewrite <- H in S;
    destruct (atoks (slen src) n (start src) 1 fs0) as [[[[ts' p'] line'] fs']|];
    try discriminate S; destruct S as (c' & S & _); discriminate S.
Qed.

Lemma consumed_at src p c : at_ src p c -> consumed c = slen src - slen p.
Proof.
  intros [H1 H2]. unfold consumed. destruct (c_last c).
  - subst p. cbn [List.length]. rewrite skipn_length. lia.
  - destruct H2 as [-> H2]. cbn. lia.
Qed.

Lemma token_any src F c p : at_ src p c -> forall k c', c_get_token src F c = Ok (k, c') ->
  exists pl r d, alex p = (Some (k, pl, r), d) /\ c_after src c pl r d c'.
Proof.
  intros A k c' H. set (F' := (F + List.length p + 1)%nat).
  pose proof (token_mono src F c ltac:(congruence) F' ltac:(unfold F'; lia)) as M.
  pose proof (c_get_token_ok src F' p c A ltac:(unfold F'; lia)) as S. rewrite M, H in S.
  destruct (alex p) as [[[[k' pl] r]|] d]; [|discriminate].
  destruct S as (c2 & E & A2). injection E as <- <-. exists pl, r, d. auto.
Qed.

Lemma lexer_progress_L src F n ts c k c' :
  ask src F n c_init = Ok (ts, c) -> c_get_token src F c = Ok (k, c') ->
  0 <= c_pos c' <= slen src /\ consumed c <= consumed c' /\ (proper k -> consumed c < consumed c').
Proof.
  intros H Hk. destruct (ask_any _ _ _ _ _ H) as (p & line & fs & _ & A & _).
  destruct (token_any _ _ _ _ A _ _ Hk) as (pl & r & d & E & A' & _).
  rewrite (consumed_at _ _ _ A), (consumed_at _ _ _ A').
  destruct (alex_split _ _ _ _ _ E) as (g & x & -> & _ & _ & _ & _ & _ & _ & Hp).
  split; [apply (at_range _ _ _ A')|]. rewrite !app_length. split; [lia|].
  intros Hpr. destruct (Hp Hpr) as [_ [_ Hne _ _]]. destruct x; [congruence|]. cbn [List.length]. lia.
Qed.

(** Where a run of the lexer ends. *)
Lemma alex_hang p d : alex p = (None, d) -> exists g q, p = g ++ ch_dquote :: q /\ ~ closed q.
Proof.
  intros H. unfold alex in H. destruct (triv false p) as [y d'] eqn:Et. injection H as H _.
  destruct (triv_split _ _ _ _ (le_n _) Et) as (g & -> & _). exists g.
  destruct y as [|c q]; [discriminate|]. exists q.
  destruct (litstart c) eqn:Hl.
  - rewrite (acore_lit _ _ Hl) in H.
    destruct (is_alpha c) eqn:E1; [destruct (span identc (c :: q)); discriminate|].
    destruct (is_digit c) eqn:E2; [destruct (anum false false (c :: q)) as [[[? ?] []] ?]; discriminate|].
    destruct (ceqb c ch_quote) eqn:E3; [discriminate|].
    assert (E4 : ceqb c ch_dquote = true).
    { unfold litstart in Hl. rewrite E1, E2, E3 in Hl. exact Hl. }
    apply Ascii.eqb_eq in E4. subst c. split; [reflexivity|]. apply astr_none.
    destruct (astr q) as [[? ?]|]; [discriminate|reflexivity].
  - exfalso. unfold litstart in Hl. apply orb_false_elim in Hl as [Hl H4]. apply orb_false_elim in Hl as [Hl H3].
    apply orb_false_elim in Hl as [H1 H2]. unfold acore in H. rewrite H1, H2, H3, H4 in H.
    destruct (is_ellipsis (c :: q)); [discriminate|]. destruct (m2 (c :: q)); [discriminate|].
    destruct (find1 match1_table c); discriminate.
Qed.

Lemma atoks_end : forall m len p line fs, (List.length p <= m)%nat ->
  exists n, (n <= List.length p)%nat /\
  ((exists ts p' line' fs' t, atoks len (S n) p line fs = Some (ts ++ [t], p', line', fs') /\
      Forall (fun t => proper (tk t)) ts /\ (tk t = TEOF \/ tk t = LEXER_ERROR)) \/
   (atoks len (S n) p line fs = None /\ exists a q, p = a ++ ch_dquote :: q /\ ~ closed q)).
Proof.
  induction m as [|m IH]; intros len p line fs Hm.
  - destruct p; [|cbn in Hm; lia]. exists O. split; [cbn; lia|]. left.
    exists [], [], (line + 0), (upd (mkPay None None None None) fs), (mk_token TEOF len (line + 0) (upd (mkPay None None None None) fs)).
    split; [reflexivity|]. split; [constructor|]. left. destruct fs as [[[? ?] ?] ?]. reflexivity.
  - destruct (alex p) as [[[[k pl] r]|] d] eqn:E.
    + destruct (alex_split _ _ _ _ _ E) as (g & x & Ep & _ & _ & _ & _ & _ & _ & Hp).
      assert (Hk : tk (mk_token k (pos_of len r) (line + d) (upd pl fs)) = k) by (destruct fs as [[[? ?] ?] ?]; reflexivity).
      destruct (proper_dec k) as [[Hpr| ->]| ->].
      * destruct (Hp Hpr) as [_ [_ Hne _ _]].
        assert (Hlen : (List.length r < List.length p)%nat).
        { subst p. rewrite !app_length. destruct x; [congruence|]. cbn [List.length]. lia. }
        destruct (IH len r (line + d) (upd pl fs) ltac:(lia)) as (n & Hn & IH').
        exists (S n). split; [lia|]. 
        destruct IH' as [(ts & p' & line' & fs' & t & E1 & E2 & E3)|(E1 & a & q & -> & Hq)].
        -- left. exists (mk_token k (pos_of len r) (line + d) (upd pl fs) :: ts), p', line', fs', t.
           cbn [atoks]. rewrite E. cbn [atoks] in E1. rewrite E1. split; [reflexivity|]. split; [|exact E3].
           constructor; [rewrite Hk; exact Hpr|exact E2].
        -- right. cbn [atoks]. rewrite E. cbn [atoks] in E1. rewrite E1. split; [reflexivity|].
           exists (g ++ x ++ a), q. subst p. rewrite <- !app_assoc. auto.
      * exists O. split; [lia|]. left. cbn [atoks]. rewrite E. eexists [], _, _, _, _. split; [reflexivity|].
        split; [constructor|]. left. exact Hk.
      * exists O. split; [lia|]. left. cbn [atoks]. rewrite E. eexists [], _, _, _, _. split; [reflexivity|].
        split; [constructor|]. right. exact Hk.
    + exists O. split; [lia|]. right. cbn [atoks]. rewrite E. split; [reflexivity|]. apply (alex_hang _ _ E).
Qed.

Lemma alex_start p : alex (start p) = alex p.
Proof. unfold alex. cbn [triv]. change (is_space " ") with true. cbn iota. destruct (triv false p). f_equal. cbn. lia. Qed.
Lemma atoks_start len n p line fs : atoks len (S n) (start p) line fs = atoks len (S n) p line fs.
Proof. cbn [atoks]. rewrite alex_start. reflexivity. Qed.

Lemma atoks_length : forall m len p line fs ts p' line' fs',
  atoks len m p line fs = Some (ts, p', line', fs') -> List.length ts = m.
Proof.
  induction m as [|m IH]; intros len p line fs ts p' line' fs' E; cbn [atoks] in E.
  - injection E as <- _ _ _. reflexivity.
  - destruct (alex p) as [[[[k pl] r]|] d]; [|discriminate].
    destruct (atoks len m r (line + d) (upd pl fs)) as [[[[ts' ?] ?] ?]|] eqn:E2; [|discriminate].
    injection E as <- _ _ _. cbn [List.length]. rewrite (IH _ _ _ _ _ _ _ _ E2). reflexivity.
Qed.

Lemma lexer_total_L src : exists n, (n <= List.length src)%nat /\
  ((exists ts t, Forall (fun t => proper (tk t)) ts /\ (tk t = TEOF \/ tk t = LEXER_ERROR) /\ List.length ts = n /\
      forall F, (List.length src + 1 < F)%nat -> exists c, ask src F (S n) c_init = Ok (ts ++ [t], c)) \/
   ((exists a q, src = a ++ ch_dquote :: q /\ ~ closed q) /\ forall F, ask src F (S n) c_init = Fuel)).
Proof.
  destruct (atoks_end (List.length src) (slen src) src 1 fs0 (le_n _)) as (n & Hn & H).
  rewrite <- atoks_start in H. exists n. split; [exact Hn|].
  destruct H as [(ts & p' & line' & fs' & t & E & Hts & Ht)|(E & Hq)].
  - left. pose proof (atoks_length _ _ _ _ _ _ _ _ _ E) as Ln. rewrite app_length in Ln. cbn [List.length] in Ln.
    exists ts, t. split; [exact Hts|]. split; [exact Ht|]. split; [lia|].
    intros F HF. pose proof (ask_start src (S n) F HF) as S. rewrite E in S. destruct S as (c & S & _). exists c. exact S.
  - right. split; [exact Hq|]. intros F.
    destruct (ask src F (S n) c_init) as [[ts c]| | |] eqn:EA; [| | |reflexivity].
    + destruct (ask_any _ _ _ _ _ EA) as (? & ? & ? & E' & _). congruence.
    + destruct (lexer_safe_L src F (S n)); congruence.
    + destruct (lexer_safe_L src F (S n)); congruence.
Qed.

(** C13 *)
Lemma tk_mk k p l fs : tk (mk_token k p l fs) = k.
Proof. destruct fs as [[[? ?] ?] ?]. reflexivity. Qed.
Lemma tk_line_mk k p l fs : tk_line (mk_token k p l fs) = l.
Proof. destruct fs as [[[? ?] ?] ?]. reflexivity. Qed.

Lemma atoks_cut : forall n len p line fs ts p' line' fs',
  atoks len n p line fs = Some (ts, p', line', fs') ->
  exists ps, p = joined ps ++ p' /\ cut line ps ts /\
    line' = line + Z.of_nat (newlines (concat (map fst ps))).
Proof.
  induction n as [|n IH]; intros len p line fs ts p' line' fs' E; cbn [atoks] in E.
  - injection E as <- <- <- <-. exists []. split; [reflexivity|]. split; [constructor|cbn; lia].
  - destruct (alex p) as [[[[k pl] r]|] d] eqn:Ea; [|discriminate].
    destruct (atoks len n r (line + d) (upd pl fs)) as [[[[ts' ?] ?] ?]|] eqn:E2; [|discriminate].
    injection E as <- -> -> ->. destruct (IH _ _ _ _ _ _ _ _ E2) as (ps & -> & Hc & ->).
    destruct (alex_split _ _ _ _ _ Ea) as (g & x & -> & Hd & Hg & _ & _ & He & _ & Hp).
    exists ((g, x) :: ps). split; [unfold joined; cbn [map concat fst snd]; rewrite <- !app_assoc; reflexivity|].
    split.
    + constructor; rewrite ?tk_mk, ?tk_line_mk.
      * exact Hg.
      * intros H1 H2 H3. destruct (proper_dec k) as [[Hpr|Hk]|Hk]; [|destruct (He Hk) as [-> _]; reflexivity|congruence].
        destruct (Hp Hpr) as [_ [_ _ Hn _]]. auto.
      * intros Hk. apply (He Hk).
      * intros Hpr. apply (Hp Hpr).
      * lia.
      * exact Hc.
    + cbn [map concat fst]. rewrite newlines_app. lia.
Qed.

Lemma lexer_lines_L src F n ts c : ask src F (S n) c_init = Ok (ts, c) ->
  exists ps, cut 1 ps ts /\ joined ps = firstn (Z.to_nat (consumed c)) src /\
    c_line c = 1 + Z.of_nat (newlines (concat (map fst ps))).
Proof.
  intros H. destruct (ask_any _ _ _ _ _ H) as (p' & line' & fs' & E & A & <- & _).
  rewrite atoks_start in E. destruct (atoks_cut _ _ _ _ _ _ _ _ _ E) as (ps & Ep & Hc & Hl).
  exists ps. split; [exact Hc|]. split; [|exact Hl].
  rewrite (consumed_at _ _ _ A). rewrite Ep, app_length.
  replace (Z.to_nat _) with (List.length (joined ps)) by lia.
  rewrite firstn_app, Nat.sub_diag, firstn_all, firstn_O, app_nil_r. reflexivity.
Qed.

Lemma newlines_joined ps : newlines (joined ps) =
  (newlines (concat (map fst ps)) + newlines (concat (map snd ps)))%nat.
Proof.
  induction ps as [|[g x] ps IH]; [reflexivity|]. unfold joined in *. cbn [map concat fst snd].
  rewrite !newlines_app, IH. lia.
Qed.

Lemma lexer_lines_real_L src F n ts c : ask src F (S n) c_init = Ok (ts, c) ->
  exists ps, cut 1 ps ts /\ joined ps = firstn (Z.to_nat (consumed c)) src /\
   (newlines (concat (map snd ps)) = 0%nat ->
    c_line c = 1 + Z.of_nat (newlines (firstn (Z.to_nat (consumed c)) src))).
Proof.
  intros H. destruct (lexer_lines_L _ _ _ _ _ H) as (ps & H1 & H2 & H3). exists ps.
  split; [exact H1|]. split; [exact H2|]. intros H0. rewrite <- H2, newlines_joined, H3, H0. lia.
Qed.

(** C11 *)
Definition contents (len : Z) (n : nat) (p : text) (fs : fields) :=
  match atoks len n p 0 fs with Some (ts, _, _, _) => Some (map content ts) | None => None end.

Lemma atoks_shift : forall n len len' p line line' fs,
  match atoks len n p line fs, atoks len' n p line' fs with
  | Some (ts, p1, l1, f1), Some (ts', p2, l2, f2) =>
      map content ts = map content ts' /\ p1 = p2 /\ f1 = f2 /\ l2 - line' = l1 - line /\
      map (fun t => tk_line t - line) ts = map (fun t => tk_line t - line') ts'
  | None, None => True
  | _, _ => False
  end.
Proof.
  induction n as [|n IH]; intros len len' p line line' fs; cbn [atoks].
  - repeat split; lia.
  - destruct (alex p) as [[[[k pl] r]|] d]; [|exact I].
    specialize (IH len len' r (line + d) (line' + d) (upd pl fs)).
    destruct (atoks len n r (line + d) (upd pl fs)) as [[[[ts p1] l1] f1]|],
             (atoks len' n r (line' + d) (upd pl fs)) as [[[[ts' p2] l2] f2]|]; auto.
    destruct IH as (E1 & E2 & E3 & E4 & E5). cbn [map]. rewrite E1.
    split; [f_equal; destruct (upd pl fs) as [[[? ?] ?] ?]; reflexivity|]. split; [exact E2|]. split; [exact E3|].
    split; [lia|]. rewrite !tk_line_mk. f_equal; [lia|].
    assert (G : forall (l : list token) a b, map (fun t => tk_line t - (a + b)) l = map (fun x => x - b) (map (fun t => tk_line t - a) l)).
    { intros l a b. rewrite map_map. apply map_ext. intros; lia. }
    rewrite (G ts), (G ts') in E5.
    assert (Inj : forall l l' : list Z, map (fun x => x - d) l = map (fun x => x - d) l' -> l = l').
    { induction l as [|x l IHl]; intros [|y l'] Hl; cbn in Hl; try discriminate; [reflexivity|].
      injection Hl as H1 H2. f_equal; [lia|auto]. }
    apply Inj. exact E5.
Qed.

Lemma alex_gap w b : gap w -> alex (w ++ b) = (fst (alex b), snd (alex b) + Z.of_nat (newlines w)).
Proof.
  intros H. unfold alex. rewrite (triv_gap _ H). destruct (triv false b). reflexivity.
Qed.

Lemma gap_head w : gap w -> match w with [] => True | c :: _ => is_space c = true \/ c = "/"%char end.
Proof.
  intros []; [exact I| |]; [left; apply blank_space; assumption|]. right. reflexivity.
Qed.

Lemma suffix_split (a b c d : text) : a ++ b = c ++ d -> (List.length d <= List.length b)%nat ->
  exists y, b = y ++ d.
Proof.
  revert c. induction a as [|x a IH]; intros c H Hl.
  - exists c. exact H.
  - destruct c as [|y c].
    + cbn [app] in H. exfalso. apply (f_equal (@List.length _)) in H. cbn [List.length] in H. rewrite app_length in H. lia.
    + injection H as _ H. apply (IH c H Hl).
Qed.

Lemma atoks_le : forall n len p line fs ts p' line' fs',
  atoks len n p line fs = Some (ts, p', line', fs') -> Forall (fun t => proper (tk t)) ts ->
  (n + List.length p' <= List.length p)%nat.
Proof.
  induction n as [|n IH]; intros len p line fs ts p' line' fs' E Hf; cbn [atoks] in E.
  - injection E as <- <- _ _. lia.
  - destruct (alex p) as [[[[k pl] r]|] d] eqn:Ea; [|discriminate].
    destruct (atoks len n r (line + d) (upd pl fs)) as [[[[ts' ?] ?] ?]|] eqn:E2; [|discriminate].
    injection E as <- -> -> ->. inversion Hf as [|? ? Hk Hts]; subst. specialize (IH _ _ _ _ _ _ _ _ E2 Hts).
    destruct (alex_split _ _ _ _ _ Ea) as (g & x & -> & _ & _ & _ & _ & _ & _ & Hp).
    rewrite tk_mk in Hk. destruct (Hp Hk) as [_ [_ Hne _ _]]. rewrite !app_length. destruct x; [congruence|].
    cbn [List.length]. lia.
Qed.

Lemma alex_local g x k pl r r' : gap g -> stop (x ++ r) -> tok_shape (x ++ r) k pl r x -> follow k r r' ->
  alex (g ++ x ++ r') = (Some (k, pl, r'), Z.of_nat (newlines g)).
Proof.
  intros Hg Hs [_ _ _ Hl] Hf. destruct (Hl r' Hf) as [E S]. unfold alex.
  rewrite (triv_gap _ Hg), (triv_stop _ (S Hs)), E. f_equal.
Qed.

(** Insert [w] before [b] after the tokens made of [y]. *)
Lemma atoks_insert w b len' : gap w -> forall n len y line fs ts line' fs',
  atoks len (S n) (y ++ b) line fs = Some (ts, b, line', fs') ->
  Forall (fun t => proper (tk t)) ts ->
  (w = [] \/ begins_blank w \/ last (map tk ts) TEOF <> SLASH) ->
  exists ts', atoks len' (S n) (y ++ w ++ b) line fs = Some (ts', w ++ b, line', fs') /\
    map content ts' = map content ts /\ map tk_line ts' = map tk_line ts.
Proof.
  intros Hw. induction n as [|n IH]; intros len y line fs ts line' fs' E Hts Hsl.
  - cbn [atoks] in E. destruct (alex (y ++ b)) as [[[[k pl] r]|] d] eqn:Ea; [|discriminate].
    injection E as <- -> <- <-. inversion Hts as [|? ? Hk _]; subst. rewrite tk_mk in Hk.
    destruct (alex_split _ _ _ _ _ Ea) as (g & x & Ey & Hd & _ & Hs & _ & _ & _ & Hp).
    destruct (Hp Hk) as [Hg Hx].
    rewrite app_assoc in Ey. apply app_inv_tail in Ey. subst y. rewrite <- app_assoc.
    cbn [map last] in Hsl. rewrite tk_mk in Hsl.
    assert (Hf : follow k b (w ++ b)).
    { destruct w as [|c w].
      - cbn [app]. destruct b as [|h t]; [left; exact I|]. right. exists h, t, t. auto.
      - left. cbn [app sep]. pose proof (gap_head _ Hw) as [Hc|Hc]; [auto|].
        destruct Hsl as [Hsl|[(c' & w' & Ew & Hb)|Hsl]]; [discriminate| |auto].
        injection Ew as <- _. left. apply blank_space. exact Hb. }
    cbn [atoks]. rewrite (alex_local g x k pl b (w ++ b) Hg Hs Hx Hf), Hd.
    eexists. split; [reflexivity|]. cbn [map]. rewrite !tk_line_mk.
    split; [|reflexivity]. f_equal. destruct (upd pl fs) as [[[? ?] ?] ?]. reflexivity.
  - remember (S n) as m. cbn [atoks] in E. destruct (alex (y ++ b)) as [[[[k pl] r]|] d] eqn:Ea; [|discriminate].
    destruct (atoks len m r (line + d) (upd pl fs)) as [[[[ts1 ?] ?] ?]|] eqn:E2; [|discriminate].
    injection E as <- -> -> ->. inversion Hts as [|? ? Hk Hts1]; subst ts1 x. rewrite tk_mk in Hk.
    destruct (alex_split _ _ _ _ _ Ea) as (g & x & Ey & Hd & _ & Hs & _ & _ & _ & Hp).
    destruct (Hp Hk) as [Hg Hx]. pose proof (atoks_le _ _ _ _ _ _ _ _ _ E2 Hts1) as Hlen.
    destruct (suffix_split (g ++ x) r y b) as [y1 ->]; [rewrite <- app_assoc; auto|lia|].
    rewrite app_assoc, app_assoc in Ey. apply app_inv_tail in Ey. subst y.
    destruct y1 as [|h y1]; [cbn [app] in Hlen; lia|].
    assert (Hsl' : w = [] \/ begins_blank w \/ last (map tk l) TEOF <> SLASH).
    { destruct Hsl as [Hsl|[Hsl|Hsl]]; auto. right. right. destruct l as [|t1 l]; [|exact Hsl].
      apply atoks_length in E2. cbn in E2. lia. }
    assert (Hf : follow k ((h :: y1) ++ b) ((h :: y1) ++ w ++ b)).
    { right. exists h, (y1 ++ b), (y1 ++ w ++ b). split; [reflexivity|]. split; [reflexivity|].
      destruct y1 as [|h' y1]; [|auto]. destruct w as [|c w]; [auto|]. cbn [app hd_error].
      intros Hc. injection Hc as ->. pose proof (gap_head _ Hw) as [Hc|Hc]; discriminate Hc. }
    pose proof (alex_local g x k pl _ _ Hg Hs Hx Hf) as Eal.
    destruct (IH _ _ _ _ _ _ _ E2 Hts1 Hsl') as (ts' & E3 & C3 & L3).
    rewrite <- !app_assoc. cbn [atoks]. rewrite Eal, Hd, E3.
    eexists. split; [reflexivity|]. cbn [map]. rewrite !tk_line_mk, C3, L3.
    split; [|reflexivity]. f_equal. destruct (upd pl fs) as [[[? ?] ?] ?]. reflexivity.
Qed.

Lemma atoks_app : forall n m len p line fs,
  atoks len (n + m) p line fs =
  match atoks len n p line fs with
  | None => None
  | Some (ts, p1, l1, f1) =>
      match atoks len m p1 l1 f1 with
      | None => None
      | Some (ts2, p2, l2, f2) => Some (ts ++ ts2, p2, l2, f2)
      end
  end.
Proof.
  induction n as [|n IH]; intros m len p line fs; cbn [atoks Nat.add].
  - destruct (atoks len m p line fs) as [[[[? ?] ?] ?]|]; reflexivity.
  - destruct (alex p) as [[[[k pl] r]|] d]; [|reflexivity]. rewrite IH.
    destruct (atoks len n r (line + d) (upd pl fs)) as [[[[ts1 p1] l1] f1]|]; [|reflexivity].
    destruct (atoks len m p1 l1 f1) as [[[[ts2 p2] l2] f2]|]; reflexivity.
Qed.

Lemma atoks_gap w b : gap w -> forall m len len' line fs,
  match atoks len (S m) b line fs, atoks len' (S m) (w ++ b) line fs with
  | Some (ts, _, _, _), Some (ts', _, _, _) =>
      map content ts = map content ts' /\
      map (fun t => tk_line t + Z.of_nat (newlines w)) ts = map tk_line ts'
  | None, None => True
  | _, _ => False
  end.
Proof.
  intros Hw m len len' line fs. cbn [atoks]. rewrite (alex_gap _ _ Hw).
  destruct (alex b) as [[[[k pl] r]|] d]; cbn [fst snd]; [|exact I].
  pose proof (atoks_shift m len len' r (line + d) (line + (d + Z.of_nat (newlines w))) (upd pl fs)) as S.
  destruct (atoks len m r (line + d) (upd pl fs)) as [[[[ts p1] l1] f1]|],
    (atoks len' m r (line + (d + Z.of_nat (newlines w))) (upd pl fs)) as [[[[ts' p2] l2] f2]|]; auto.
  destruct S as (C & _ & _ & _ & L). cbn [map]. rewrite C, !tk_line_mk. split.
  - f_equal. destruct (upd pl fs) as [[[? ?] ?] ?]. reflexivity.
  - f_equal; [lia|].
    assert (G : map (fun x => x + line + d + Z.of_nat (newlines w)) (map (fun t => tk_line t - (line + d)) ts) =
                map (fun x => x + line + d + Z.of_nat (newlines w)) (map (fun t => tk_line t - (line + (d + Z.of_nat (newlines w)))) ts')) by congruence.
    rewrite !map_map in G. erewrite map_ext; [erewrite G; apply map_ext; intros; cbv beta; lia|]. intros; cbv beta; lia.
Qed.

Lemma trivia_insertion_L a b w F n ts c :
  gap w -> ask (a ++ b) F n c_init = Ok (ts, c) -> Forall (fun t => proper (tk t)) ts ->
  (n = O /\ a = []) \/ ((1 <= n)%nat /\ consumed c = slen a) ->
  (w = [] \/ begins_blank w \/ last (map tk ts) TEOF <> SLASH) ->
  forall m F', (List.length (a ++ w ++ b) + 1 < F')%nat ->
  match ask (a ++ b) F' (n + m) c_init, ask (a ++ w ++ b) F' (n + m) c_init with
  | Ok (ts1, _), Ok (ts2, _) =>
      map content ts1 = map content ts2 /\
      map tk_line (firstn n ts1) = map tk_line (firstn n ts2) /\
      map (fun t => tk_line t + Z.of_nat (newlines w)) (skipn n ts1) = map tk_line (skipn n ts2)
  | Fuel, Fuel => True
  | _, _ => False
  end.
Proof.
  intros Hw Ha Hts Hn Hsl m F' HF.
  assert (HF2 : (List.length (a ++ b) + 1 < F')%nat) by (rewrite !app_length in *; lia).
  pose proof (ask_start (a ++ b) (n + m) F' HF2) as S1. pose proof (ask_start (a ++ w ++ b) (n + m) F' HF) as S2.
  destruct (ask_any _ _ _ _ _ Ha) as (p & line & fs & E & A & El & Ef).
  destruct Hn as [[-> ->]|[Hn Hcons]].
  - cbn [Nat.add app] in *. destruct m as [|m]; [cbn in *; split; auto|].
    rewrite atoks_start in S1, S2.
    pose proof (atoks_gap w b Hw m (slen b) (slen (w ++ b)) 1 fs0) as G.
    destruct (atoks (slen b) (S m) b 1 fs0) as [[[[ts1 ?] ?] ?]|], (atoks (slen (w ++ b)) (S m) (w ++ b) 1 fs0) as [[[[ts2 ?] ?] ?]|];
      try destruct G; try destruct S1 as (c1 & -> & _); try destruct S2 as (c2 & -> & _).
    + cbn [skipn firstn]. auto.
    + rewrite S1, S2. exact I.
  - destruct n as [|n]; [lia|]. rewrite atoks_start in E.
    assert (Ep : p = b).
    { rewrite (consumed_at _ _ _ A) in Hcons. rewrite app_length in Hcons.
      destruct (atoks_cut _ _ _ _ _ _ _ _ _ E) as (ps & Ep & _).
      destruct (suffix_split (joined ps) p a b) as [y ->]; [auto|lia|].
      rewrite app_length in Hcons. destruct y; [reflexivity|cbn in Hcons; lia]. }
    subst p.
    destruct (atoks_insert w b (slen (a ++ w ++ b)) Hw n _ _ _ _ _ _ _ E Hts Hsl) as (ts' & E' & C & L).
    cbn [Nat.add] in S1, S2. rewrite atoks_start in S1, S2. change (S (n + m)) with (S n + m)%nat in S1, S2.
    rewrite atoks_app in S1, S2. rewrite E in S1. rewrite E' in S2.
    pose proof (atoks_length _ _ _ _ _ _ _ _ _ E) as Ln. pose proof (atoks_length _ _ _ _ _ _ _ _ _ E') as Ln'.
    assert (Sp : forall l l' : list token, List.length l = S n -> firstn (S n) (l ++ l') = l /\ skipn (S n) (l ++ l') = l').
    { intros l l' <-. split.
      - rewrite firstn_app, Nat.sub_diag, firstn_all, firstn_O, app_nil_r. reflexivity.
      - rewrite skipn_app, Nat.sub_diag, skipn_all, skipn_O. reflexivity. }
    destruct m as [|m].
    + cbn [atoks] in S1, S2. destruct S1 as (c1 & -> & _), S2 as (c2 & -> & _).
      rewrite !app_nil_r. split; [congruence|]. rewrite <- Ln at 1. rewrite <- Ln' at 1. rewrite !firstn_all.
      split; [congruence|]. rewrite <- Ln at 1. rewrite <- Ln'. rewrite !skipn_all. reflexivity.
    + pose proof (atoks_gap w b Hw m (slen (a ++ b)) (slen (a ++ w ++ b)) line fs) as G.
      destruct (atoks (slen (a ++ b)) (S m) b line fs) as [[[[ts1 ?] ?] ?]|],
               (atoks (slen (a ++ w ++ b)) (S m) (w ++ b) line fs) as [[[[ts2 ?] ?] ?]|];
      first [destruct G as [G1 G2] | destruct G | idtac]; try destruct S1 as (c1 & -> & _); try destruct S2 as (c2 & -> & _).
      * destruct (Sp ts ts1 Ln) as [-> ->]. destruct (Sp ts' ts2 Ln') as [-> ->].
        rewrite !map_app, G1, C, L. auto.
      * rewrite S1, S2. exact I.
Qed.
