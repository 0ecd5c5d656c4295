(** * The token stream the parser works on *)
From Verif Require Import Base Float64 Token Lexer LexerAbs LexerC LexerCProofs LexerSpec LexerProofs LexerTheory.
Local Open Scope nat_scope.

(** Tokens of these kinds carry their spelling; the spelling of an earlier token
    stays until the next one. *)
Definition wordless (k : tokkind) : Prop := k = CHAR \/ k = TEOF \/ k = LEXER_ERROR.

Lemma achar_wordless rest k pl r : achar rest = (k, pl, r) -> wordless k.
Proof.
  unfold achar, wordless. intros E.
  repeat match type of E with context [match ?x with _ => _ end] => destruct x end; injection E as <- _ _; auto.
Qed.
Lemma acore_lexeme p k pl r : acore p = Some (k, pl, r) -> wordless k \/ py_lexeme pl <> None.
Proof.
  unfold acore. destruct p as [|c rest]; [intros [= <- _ _]; left; right; auto|].
  destruct (is_ellipsis _); [intros [= _ <- _]; right; discriminate|].
  destruct (m2 _); [intros [= _ <- _]; right; discriminate|].
  destruct (find1 _ _); [intros [= _ <- _]; right; discriminate|].
  destruct (is_alpha c); [destruct (span _ _); intros [= _ <- _]; right; discriminate|].
  destruct (is_digit c).
  { destruct (anum _ _ _) as [[[s hx] fl] r']. destruct fl; intros [= _ <- _]; right; discriminate. }
  destruct (ceqb c ch_quote); [intros E; left; eapply achar_wordless; injection E as E; exact E|].
  destruct (ceqb c ch_dquote).
  { destruct (astr rest) as [[s r']|]; [|discriminate]. intros [= _ <- _]. right. discriminate. }
  intros [= <- _ _]. left. right. auto.
Qed.

(** [t'] comes after a token with lexeme [x] *)
Definition follows (x : option text) (t' : token) : Prop :=
  (x <> None -> tk_lexeme t' <> None) /\ (wordless (tk t') \/ tk_lexeme t' <> None).
Fixpoint chained (x : option text) (ts : list token) (e : stream_end) : Prop :=
  match ts with
  | t :: ts' => follows x t /\ chained (tk_lexeme t) ts' e
  | [] => match e with
          | SRepeat t => follows x t /\ (tk t = TEOF \/ tk t = LEXER_ERROR)
          | SHang => True
          | SFuel => False
          end
  end.

Lemma stream_ok : forall fuel l, lex_ok l -> length (pend l) < fuel ->
  let '(ts, e) := lex_stream fuel l in
  chained (lx_lexeme l) ts e /\
  (e = SHang -> exists g q, pend l = g ++ ch_dquote :: q /\ ~ closed q) /\
  length ts <= length (pend l).
Proof.
  induction fuel as [|fuel IH]; intros l K F; [lia|]. cbn [lex_stream].
  pose proof (get_token_abs l K) as G. destruct (alex (pend l)) as [[[[k pl] p']|] d] eqn:A.
  2:{ rewrite G. cbn. split; [exact I|]. split; [|lia]. intros _. eapply alex_hang; eauto. }
  destruct G as (l' & -> & P & K' & Pos & _ & Lx & _).
  destruct (alex_split _ _ _ _ _ A) as (g & x & Ep & _ & _ & _ & C & _ & Er & Sh).
  assert (Fo : follows (lx_lexeme l) (snapshot k l')).
  { split; cbn [snapshot tk tk_lexeme]; rewrite Lx.
    - destruct (py_lexeme pl); cbn; congruence.
    - destruct (acore_lexeme _ _ _ _ C) as [W|W]; [left; exact W|]. right. destruct (py_lexeme pl); cbn; congruence. }
  assert (Rec : length p' < length (pend l) ->
    let '(ts, e) := let '(ts, e) := lex_stream fuel l' in (snapshot k l' :: ts, e) in
    chained (lx_lexeme l) ts e /\ (e = SHang -> exists g q, pend l = g ++ ch_dquote :: q /\ ~ closed q) /\ length ts <= length (pend l)).
  { intros L. specialize (IH l' K'). rewrite P in IH. specialize (IH ltac:(lia)). destruct (lex_stream fuel l') as [ts e].
    destruct IH as (I1 & I2 & I3). split; [cbn; split; auto|]. split.
    - intros E. destruct (I2 E) as (g' & q & Eq & Nc). exists (g ++ x ++ g'), q. split; auto. rewrite Ep, Eq, <- !app_assoc. reflexivity.
    - cbn. lia. }
  assert (Prop_ : proper k -> length p' < length (pend l)).
  { intros Pk. destruct (Sh Pk) as (_ & S). destruct S as [_ Sx _ _]. rewrite Ep, !app_length. destruct x; [destruct Sx; auto|cbn; lia]. }
  assert (End : tk (snapshot k l') = TEOF \/ tk (snapshot k l') = LEXER_ERROR -> 
    chained (lx_lexeme l) [] (SRepeat (snapshot k l')) /\ (SRepeat (snapshot k l') = SHang -> exists g q, pend l = g ++ ch_dquote :: q /\ ~ closed q) /\ length (@nil token) <= length (pend l)).
  { intros E. split; [split; auto|]. split; [discriminate|]. cbn. lia. }
  destruct (proper_dec k) as [[Pk| ->]| ->].
  - specialize (Rec (Prop_ Pk)). destruct Pk as [P1 P2]. destruct k; try exact Rec; congruence.
  - apply End. left. reflexivity.
  - destruct (lex_moved l l') eqn:Mv; [|apply End; right; reflexivity]. apply Rec.
    assert (length p' <= length (pend l)) by (eapply alex_le; eauto).
    destruct (Nat.eq_dec (length p') (length (pend l))) as [Eq|]; [exfalso|lia].
    assert (g ++ x = []). { rewrite Ep, !app_length in Eq. destruct g, x; cbn in *; auto; lia. }
    assert (Epp : pend l = p'). { rewrite Ep, app_assoc, H0. reflexivity. }
    rewrite <- P in Epp. unfold lex_ok in K, K'. unfold pend, pending in Epp. unfold lex_moved in Mv. revert Mv.
    destruct (lx_last l) as [a|] eqn:La, (lx_last l') as [b|] eqn:Lb; try discriminate.
    + injection Epp as <- Er'. rewrite Er' in Pos. assert (Ez : lx_pos l = lx_pos l') by lia. rewrite Ez, Z.eqb_refl.
      unfold ceqb. rewrite Ascii.eqb_refl. discriminate.
    + rewrite (K eq_refl), (K' eq_refl) in Pos. assert (Ez : lx_pos l = lx_pos l') by lia. rewrite Ez, Z.eqb_refl. discriminate.
Qed.

Lemma lex_all_ok src : let '(ts, e) := lex_all src in
  chained None ts e /\ (e = SHang -> exists g q, src = g ++ ch_dquote :: q /\ ~ closed q) /\ length ts <= length src + 1.
Proof.
  unfold lex_all. pose proof (stream_ok (length src + 3) (init_lexer src)) as S.
  specialize (S ltac:(intros E; discriminate E) ltac:(cbn; lia)). destruct (lex_stream _ _) as [ts e].
  destruct S as (S1 & S2 & S3). split; [exact S1|]. split; [|cbn in S3; lia].
  intros E. destruct (S2 E) as (g & q & Eg & C). cbn in Eg. destruct g as [|c g]; cbn in Eg.
  - discriminate Eg.
  - injection Eg as _ Eg. eauto.
Qed.
