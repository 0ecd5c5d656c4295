From Coq Require Import DecimalString DecimalN HexadecimalString HexadecimalN.
From Verif Require Import Base Float64 Token Lexer LexerAbs LexerC LexerCProofs LexerSpec LexerProofs LexerTheory Pos PosProofs.
Local Open Scope Z_scope.

Definition word_ok (w : word) : Prop :=
  exists k pl, acore (spell w) = Some (k, pl, []) /\ proper k /\ stop (spell w) /\
    forall pos line fs, reads (mk_token k pos line (upd pl fs)) w.

Ltac fs_destruct := let p := fresh in let l := fresh in let fs := fresh in
  intros p l fs; destruct fs as [[[? ?] ?] ?]; cbn.

Lemma op_ok s k : In (s, k) operators -> word_ok (WOp s k).
Proof.
  intros H. cbn in H.
  repeat (destruct H as [H|H];
   [injection H as <- <-; eexists _, _; (split; [vm_compute; reflexivity|]); (split; [split; discriminate|]); (split; [split; reflexivity|]);
    fs_destruct; reflexivity|]).
  destruct H.
Qed.

Lemma key_ok s k : In (s, k) keywords -> word_ok (WKey s k).
Proof.
  intros H. cbn in H.
  repeat (destruct H as [H|H];
   [injection H as <- <-; eexists _, _; (split; [vm_compute; reflexivity|]); (split; [split; discriminate|]); (split; [split; reflexivity|]);
    fs_destruct; split; [reflexivity|]; first [discriminate|reflexivity]|]).
  destruct H.
Qed.

Lemma letter_alpha c : letter c -> is_alpha c = true.
Proof. intros H. cbn in H. repeat (destruct H as [<-|H]; [reflexivity|]). destruct H. Qed.
Lemma name_char_ident c : name_char c -> identc c = true.
Proof.
  intros [H|H]; [unfold identc, is_alnum; rewrite (letter_alpha _ H); reflexivity|].
  cbn in H. repeat (destruct H as [<-|H]; [reflexivity|]). destruct H.
Qed.

Lemma not_kw s : ~ In s (map (fun kw => text_of (fst kw)) keywords) -> find_kw keyword_table s = IDENT.
Proof.
  intros H.
  assert (G : forall t, (forall e, In e t -> In (fst e) (map (fun kw => text_of (fst kw)) keywords)) -> find_kw t s = IDENT).
  { induction t as [|[x k] t IH]; intros Ht; cbn [find_kw]; [reflexivity|].
    destruct (text_eqb s x) eqn:E.
    - apply text_eqb_eq in E. subst x. destruct H. apply (Ht (s, k)). left. reflexivity.
    - apply IH. intros e He. apply Ht. right. exact He. }
  apply G. intros e He. cbn in He.
  repeat (destruct He as [<-|He]; [cbn; tauto|]). destruct He.
Qed.

Lemma stop_lit c r : litstart c = true -> stop (c :: r).
Proof. intros H. apply not_op_stop; [apply lit_not_op|apply lit_nospace]; exact H. Qed.

Lemma name_ok s : is_name s -> word_ok (WName s).
Proof.
  intros ((c & s' & -> & Hc) & Hf & Hk). pose proof (letter_alpha _ Hc) as Ha.
  eexists _, _. cbn [spell]. split.
  - rewrite (acore_lit _ _ (alpha_lit _ Ha)), Ha.
    replace (span identc (c :: s')) with (c :: s', @nil ascii).
    + rewrite (not_kw _ Hk). reflexivity.
    + symmetry. rewrite <- (app_nil_r (c :: s')) at 1. apply span_join; [|exact I].
      eapply Forall_impl; [|exact Hf]. intros a. apply name_char_ident.
  - split; [split; discriminate|]. split; [apply stop_lit, alpha_lit, Ha|].
    fs_destruct. auto.
Qed.

(** decimal *)
Notation dstr d := (text_of (DecimalString.NilEmpty.string_of_uint d)).
Notation hstr d := (text_of (HexadecimalString.NilEmpty.string_of_uint d)).

Lemma anum_digits d hx : anum hx false (dstr d) = (dstr d, hx, false, []).
Proof. induction d; cbn [DecimalString.NilEmpty.string_of_uint text_of anum]; try reflexivity;
  (cbn; destruct hx; cbn; rewrite IHd; reflexivity). Qed.

Lemma parse_dec_pos d : forall p, parse_int 10 is_digit (Zpos p) (dstr d) = (Zpos (Pos.of_uint_acc d p), []).
Proof.
  induction d; intros p; cbn [DecimalString.NilEmpty.string_of_uint text_of parse_int Pos.of_uint_acc]; try reflexivity;
  (change (is_digit _) with true; cbn iota; rewrite <- IHd;
   match goal with |- parse_int _ _ ?a _ = parse_int _ _ ?b _ => replace a with b; [reflexivity|] end;
   match goal with |- context [digit_val ?c] => let v := eval vm_compute in (digit_val c) in change (digit_val c) with v end; lia).
Qed.
Lemma parse_dec d : parse_int 10 is_digit 0 (dstr d) = (Z.of_N (N.of_uint d), []).
Proof.
  unfold N.of_uint.
  induction d; cbn [DecimalString.NilEmpty.string_of_uint text_of parse_int Pos.of_uint]; try reflexivity;
  [exact IHd| ..]; apply parse_dec_pos.
Qed.

Lemma nilzero_dec d : text_of (DecimalString.NilZero.string_of_uint d) =
  match d with Decimal.Nil => text_of "0" | _ => dstr d end.
Proof. destruct d; reflexivity. Qed.
Lemma nilzero_hex d : text_of (HexadecimalString.NilZero.string_of_uint d) =
  match d with Hexadecimal.Nil => text_of "0" | _ => hstr d end.
Proof. destruct d; reflexivity. Qed.

Lemma wrap32_id z : 0 <= z < 2^31 -> wrap32 z = z.
Proof. intros H. unfold wrap32. rewrite Z.mod_small; lia. Qed.

Lemma dstr_head d : d <> Decimal.Nil -> exists c r, dstr d = c :: r /\ is_digit c = true.
Proof. destruct d; intros H; try congruence; eexists _, _; split; reflexivity. Qed.

Lemma digit_not_alpha c : is_digit c = true -> is_alpha c = false.
Proof. destruct c as [[] [] [] [] [] [] [] []]; intros H; try discriminate H; reflexivity. Qed.

Lemma int_ok n : (n < 2^31)%N -> word_ok (WInt n).
Proof.
  intros Hn. unfold word_ok. cbn [spell]. rewrite nilzero_dec.
  pose proof (DecimalN.Unsigned.of_to n) as Hof. 
  assert (Hd : N.to_uint n <> Decimal.Nil).
  { intros E. rewrite E in Hof. cbn in Hof. subst n. discriminate E. }
  set (d := N.to_uint n) in *. replace (match d with Decimal.Nil => text_of "0" | _ => dstr d end) with (dstr d) by (destruct d; congruence).
  destruct (dstr_head d Hd) as (c & r & E & Hc).
  eexists _, _. split.
  - rewrite E. rewrite (acore_lit _ _ (digit_lit _ Hc)), (digit_not_alpha _ Hc), Hc. rewrite <- E, anum_digits. reflexivity.
  - split; [split; discriminate|]. split; [rewrite E; apply stop_lit, digit_lit, Hc|].
    fs_destruct. split; [reflexivity|]. unfold int_value, strtol10. rewrite parse_dec. cbn [fst].
 rewrite Hof. unfold sat_long.
    rewrite Z.min_l by lia. apply wrap32_id. lia.
Qed.

(** hexadecimal *)
Lemma anum_xdigits d : anum true false (hstr d) = (hstr d, true, false, []).
Proof. induction d; cbn [HexadecimalString.NilEmpty.string_of_uint text_of anum]; try reflexivity;
  (cbn; rewrite IHd; reflexivity). Qed.

Lemma parse_hex_pos d : forall p, parse_int 16 is_xdigit (Zpos p) (hstr d) = (Zpos (Pos.of_hex_uint_acc d p), []).
Proof.
  induction d; intros p; cbn [HexadecimalString.NilEmpty.string_of_uint text_of parse_int Pos.of_hex_uint_acc]; try reflexivity;
  (change (is_xdigit _) with true; cbn iota; rewrite <- IHd;
   match goal with |- parse_int _ _ ?a _ = parse_int _ _ ?b _ => replace a with b; [reflexivity|] end;
   match goal with |- context [digit_val ?c] => let v := eval vm_compute in (digit_val c) in change (digit_val c) with v end; lia).
Qed.
Lemma parse_hex d : parse_int 16 is_xdigit 0 (hstr d) = (Z.of_N (N.of_hex_uint d), []).
Proof.
  unfold N.of_hex_uint.
  induction d; cbn [HexadecimalString.NilEmpty.string_of_uint text_of parse_int Pos.of_hex_uint]; try reflexivity;
  [exact IHd| ..]; apply parse_hex_pos.
Qed.
Lemma hstr_head d : d <> Hexadecimal.Nil -> exists c r, hstr d = c :: r /\ is_xdigit c = true.
Proof. destruct d; intros H; try congruence; eexists _, _; split; reflexivity. Qed.

Lemma hex_ok n : (n < 2^31)%N -> word_ok (WHex n).
Proof.
  intros Hn. unfold word_ok. cbn [spell]. rewrite nilzero_hex.
  pose proof (HexadecimalN.Unsigned.of_to n) as Hof. 
  assert (Hd : N.to_hex_uint n <> Hexadecimal.Nil).
  { intros E. rewrite E in Hof. cbn in Hof. subst n. discriminate E. }
  set (d := N.to_hex_uint n) in *.
  replace (match d with Hexadecimal.Nil => text_of "0" | _ => hstr d end) with (hstr d) by (destruct d; congruence).
  destruct (hstr_head d Hd) as (c & r & E & Hc).
  eexists _, _. split.
  - cbn [text_of app]. rewrite acore_lit by reflexivity. change (is_alpha "0") with false. change (is_digit "0") with true. cbn iota.
    cbn [anum]. change (numc false false "0") with true. cbn iota. change (ceqb "0" "x") with false. change (ceqb "0" ".") with false. cbn iota.
    change (numc false false "x") with true. cbn iota. change (ceqb "x" "x") with true. cbn iota.
    rewrite anum_xdigits. reflexivity.
  - split; [split; discriminate|]. split; [split; reflexivity|].
    fs_destruct. split; [reflexivity|]. unfold int_value, strtoll16. cbn [hex_prefix].
    change (ceqb "0" "0" && ceqb "x" "x") with true. cbn iota.
    destruct (hstr d) as [|c' r'] eqn:E'; [discriminate E|]. injection E as -> ->. rewrite Hc.
    pose proof (parse_hex d) as P. rewrite E' in P. cbn in P. rewrite Hc in P. rewrite P. cbn [fst].
    rewrite Hof. unfold sat_long. rewrite Z.min_l by lia. apply wrap32_id. lia.
Qed.

Lemma char_ok c : word_ok (WChar c).
Proof.
  unfold word_ok. destruct c as [[] [] [] [] [] [] [] []];
  (eexists _, _; split; [vm_compute; reflexivity|]; split; [split; discriminate|]; split; [split; reflexivity|];
   fs_destruct; split; reflexivity).
Qed.

Lemma astr_quoted c p : astr (quoted c ++ p) = match astr p with Some (s, r) => Some (c :: s, r) | None => None end.
Proof. destruct c as [[] [] [] [] [] [] [] []]; reflexivity. Qed.
Lemma astr_quoted_all s r : astr (concat (map quoted s) ++ ch_dquote :: r) = Some (s, r).
Proof.
  induction s as [|c s IH]; [reflexivity|]. cbn [map concat]. rewrite <- app_assoc, astr_quoted, IH. reflexivity.
Qed.

Lemma str_ok s : word_ok (WStr s).
Proof.
  eexists _, _. split.
  - cbn [spell app]. rewrite acore_lit by reflexivity. change (is_alpha ch_dquote) with false. change (is_digit ch_dquote) with false.
    change (ceqb ch_dquote ch_quote) with false. cbn iota. rewrite astr_quoted_all. reflexivity.
  - split; [split; discriminate|]. split; [apply stop_lit; reflexivity|]. fs_destruct. auto.
Qed.

(** floats *)
Lemma digit_char_digit d : (d < 10)%nat -> is_digit (digit_char d) = true /\ digit_val (digit_char d) = Z.of_nat d.
Proof. intros H. do 10 (destruct d as [|d]; [split; reflexivity|]). lia. Qed.

Lemma digit_numc c hx fl : is_digit c = true -> numc hx fl c = true /\ ceqb c "x" = false /\ ceqb c "." = false.
Proof. intros H. destruct c as [[] [] [] [] [] [] [] []]; try discriminate H; repeat split. Qed.

Lemma anum_digit_chars ds : Forall (fun d => (d < 10)%nat) ds -> forall hx fl r,
  anum hx fl (map digit_char ds ++ r) = let '(a, h, f, b) := anum hx fl r in (map digit_char ds ++ a, h, f, b).
Proof.
  induction 1 as [|d ds Hd _ IH]; intros hx fl r; cbn [map app].
  - destruct (anum hx fl r) as [[[a h] f] b]. reflexivity.
  - destruct (digit_char_digit d Hd) as [E _]. destruct (digit_numc _ hx fl E) as (E1 & E2 & E3).
    cbn [anum]. rewrite E1, E2, E3, IH. destruct (anum hx fl r) as [[[a h] f] b]. reflexivity.
Qed.

Lemma parse_digit_chars ds : Forall (fun d => (d < 10)%nat) ds -> forall acc r,
  match r with [] => True | c :: _ => is_digit c = false end ->
  parse_int 10 is_digit acc (map digit_char ds ++ r) = (fold_left (fun a d => 10 * a + Z.of_nat d) ds acc, r).
Proof.
  induction 1 as [|d ds Hd _ IH]; intros acc r Hr; cbn [map app fold_left].
  - destruct r as [|c r]; cbn [parse_int]; [reflexivity|]. rewrite Hr. reflexivity.
  - destruct (digit_char_digit d Hd) as [E1 E2]. cbn [parse_int]. rewrite E1, E2, IH by exact Hr.
    do 2 f_equal. lia.
Qed.

Lemma float_ok a b : a <> [] -> Forall (fun d => (d < 10)%nat) (a ++ b) -> word_ok (WFloat a b).
Proof.
  intros Ha Hd. apply Forall_app in Hd. destruct Hd as [Da Db]. unfold word_ok.
  destruct a as [|d a]; [congruence|]. 
  pose proof (digit_char_digit d (Forall_inv Da)) as [Hc _].
  set (s := spell (WFloat (d :: a) b)).
  assert (Es : s = digit_char d :: (map digit_char a ++ ["."%char] ++ map digit_char b)) by reflexivity.
  assert (En : anum false false s = (s, false, true, [])).
  { unfold s. cbn [spell]. rewrite (anum_digit_chars _ Da). cbn [app anum].
    change (numc false false ".") with true. cbn iota.
    change (ceqb "." "x") with false. change (ceqb "." ".") with true. cbn iota.
    rewrite <- (app_nil_r (map digit_char b)) at 1. rewrite (anum_digit_chars _ Db). cbn [anum].
    rewrite app_nil_r. reflexivity. }
  assert (Eh : hex_prefix s = None).
  { rewrite Es. cbn [hex_prefix]. destruct a as [|e a]; cbn [map app].
    - change (ceqb "." "x") with false. rewrite andb_false_r. reflexivity.
    - pose proof (digit_char_digit e (Forall_inv (Forall_inv_tail Da))) as [He _].
      destruct (digit_numc _ false false He) as (_ & -> & _). rewrite andb_false_r. reflexivity. }
  assert (Ev : strtod s = f_of_ratio (decimal ((d :: a) ++ b)) (10 ^ Z.of_nat (List.length b))).
  { unfold strtod. rewrite Eh. cbn iota zeta. unfold parse_frac, s. cbn [spell].
    rewrite (parse_digit_chars _ Da) by reflexivity. cbn [app].
    change (ceqb "." ".") with true. cbn iota.
    rewrite <- (app_nil_r (map digit_char b)) at 1. rewrite (parse_digit_chars _ Db) by exact I.
    unfold decimal. rewrite app_comm_cons, fold_left_app, map_length, Nat.sub_0_r. reflexivity. }
  eexists _, _. split.
  - rewrite Es. rewrite (acore_lit _ _ (digit_lit _ Hc)), (digit_not_alpha _ Hc), Hc. rewrite <- Es, En. reflexivity.
  - split; [split; discriminate|]. split; [rewrite Es; apply stop_lit, digit_lit, Hc|].
    fs_destruct. split; [reflexivity|]. exact (f_equal f_single Ev).
Qed.

Lemma words_ok w : well_spelt w -> word_ok w.
Proof.
  destruct w; cbn [well_spelt]; intros H.
  - apply op_ok, H.
  - apply key_ok, H.
  - apply name_ok, H.
  - apply int_ok, H.
  - apply hex_ok, H.
  - apply float_ok; apply H.
  - apply char_ok.
  - apply str_ok.
Qed.

Lemma atoks_words len : forall ws g line fs, gap g ->
  Forall (fun p => well_spelt (fst p) /\ gap (snd p) /\ begins_blank (snd p)) ws ->
  exists ts p' line' fs', atoks len (List.length ws) (g ++ write ws) line fs = Some (ts, p', line', fs') /\
    Forall2 reads ts (map fst ws) /\ (ws <> [] -> gap p') /\ (ws = [] -> p' = g).
Proof.
  induction ws as [|[w sp] ws IH]; intros g line fs Hg Hf.
  - cbn [List.length atoks]. eexists [], _, _, _. split; [reflexivity|]. split; [constructor|].
    split; [congruence|]. intros _. cbn. apply app_nil_r.
  - inversion Hf as [|? ? (Hw & Hgs & Hb) Hf']; subst. cbn [fst snd] in *.
    destruct (words_ok _ Hw) as (k & pl & E & Hk & Hs & Hr).
    destruct (acore_shape _ _ _ _ E Hk) as [x Hx].
    assert (Ex : x = spell w) by (destruct Hx as [Hx _ _ _]; rewrite app_nil_r in Hx; auto). subst x.
    assert (Hx' : tok_shape (spell w ++ []) k pl [] (spell w)) by (rewrite app_nil_r; exact Hx).
    assert (Hs' : stop (spell w ++ [])) by (rewrite app_nil_r; exact Hs).
    assert (Hfo : follow k [] (sp ++ write ws)).
    { left. destruct Hb as (c & sp' & -> & Hb). left. apply blank_space. exact Hb. }
    pose proof (alex_local g (spell w) k pl [] (sp ++ write ws) Hg Hs' Hx' Hfo) as Ea.
    destruct (IH sp (line + Z.of_nat (newlines g)) (upd pl fs) Hgs Hf') as (ts & p' & line' & fs' & E' & R & G1 & G2).
    cbn [List.length atoks]. change (write ((w, sp) :: ws)) with ((spell w ++ sp) ++ write ws).
    rewrite <- app_assoc, Ea, E'. eexists _, _, _, _. split; [reflexivity|].
    split; [constructor; [apply Hr|exact R]|]. split; [|discriminate].
    intros _. destruct ws; [rewrite G2 by reflexivity; exact Hgs|apply G1; discriminate].
Qed.

Lemma lex_round_trip_L ws g F : gap g ->
  Forall (fun p => well_spelt (fst p) /\ gap (snd p) /\ begins_blank (snd p)) ws ->
  (List.length (g ++ write ws) + 1 < F)%nat ->
  exists ts t c, ask (g ++ write ws) F (S (List.length ws)) c_init = Ok (ts ++ [t], c) /\
    Forall2 reads ts (map fst ws) /\ tk t = TEOF.
Proof.
  intros Hg Hf HF. pose proof (ask_start (g ++ write ws) (S (List.length ws)) F HF) as S.
  rewrite atoks_start in S. replace (Datatypes.S (List.length ws)) with (List.length ws + 1)%nat in * by lia.
  rewrite atoks_app in S.
  destruct (atoks_words (slen (g ++ write ws)) ws g 1 fs0 Hg Hf) as (ts & p' & line' & fs' & E & R & G1 & G2).
  rewrite E in S. assert (Hp : gap p').
  { destruct ws; [rewrite G2 by reflexivity; exact Hg|apply G1; discriminate]. }
  cbn [atoks] in S. pose proof (alex_gap p' [] Hp) as Ea. rewrite app_nil_r in Ea. rewrite Ea in S. cbn in S.
  destruct S as (c & S & _). eexists ts, _, c. split; [exact S|]. split; [exact R|]. apply tk_mk.
Qed.
