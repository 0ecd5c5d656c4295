(** * The lexer without positions

    [alex p] is what [get_token] does on the pending text [p] (the look-ahead
    character followed by the unread text); [get_token_abs] says so. *)
From Verif Require Import Base Float64 Token Lexer.
Local Open Scope Z_scope.

Definition pend (l : lexst) : text :=
  match lx_last l with None => [] | Some c => c :: lx_rest l end.

Definition pending (last : option ascii) (rest : text) : text :=
  match last with None => [] | Some c => c :: rest end.

(** Skipping blanks and comments; also the newlines passed. *)
Fixpoint triv (cmt : bool) (p : text) : text * Z :=
  match p with
  | [] => ([], 0)
  | c :: r =>
      if cmt then
        let '(p', d) := triv (negb (ceqb c ch_nl)) r in
        (p', d + if ceqb c ch_nl then 1 else 0)
      else if is_space c then
        let '(p', d) := triv false r in (p', d + if ceqb c ch_nl then 1 else 0)
      else
        match r with
        | d :: _ => if ceqb c "/" && ceqb d "/" then triv true r else (p, 0)
        | [] => (p, 0)
        end
  end.

Definition identc (c : ascii) : bool := is_alnum c || ceqb c "_".

Fixpoint span (f : ascii -> bool) (p : text) : text * text :=
  match p with
  | [] => ([], [])
  | c :: r => if f c then let '(a, b) := span f r in (c :: a, b) else ([], p)
  end.

Definition numc (isHex isFloat : bool) (c : ascii) : bool :=
  is_digit c || (ceqb c "x" && negb isHex) || (isHex && is_xdigit c) || (ceqb c "." && negb isFloat).

Fixpoint anum (isHex isFloat : bool) (p : text) : text * bool * bool * text :=
  match p with
  | [] => ([], isHex, isFloat, [])
  | c :: r =>
      if numc isHex isFloat c then
        let isHex' := if ceqb c "x" then true else isHex in
        let isFloat' := if ceqb c "x" then isFloat
                        else if ceqb c "." then true else isFloat in
        let '(a, h, f, b) := anum isHex' isFloat' r in (c :: a, h, f, b)
      else ([], isHex, isFloat, p)
  end.

(** Body of a string literal, after its opening quote. *)
Fixpoint astr (p : text) : option (text * text) :=
  match p with
  | [] => None
  | c :: r =>
      if ceqb c ch_dquote then Some ([], r)
      else if ceqb c ch_bslash then
        match r with
        | e :: r' => match astr r' with Some (s, b) => Some (escape e :: s, b) | None => None end
        | [] => None
        end
      else match astr r with Some (s, b) => Some (c :: s, b) | None => None end
  end.

(** What a token leaves in the lexer. *)
Record payload := mkPay {
  py_lexeme : option text; py_b : option bool; py_i : option Z; py_f : option Z }.
Definition pay_lex (s : text) : payload := mkPay (Some s) None None None.

Definition achar (rest : text) : tokkind * payload * text :=
  let '(c1, r1) := match rest with [] => (None, []) | c :: r => (Some c, r) end in
  let '(c2, r2) :=
    match c1 with
    | Some c => if ceqb c ch_bslash then
                  match r1 with [] => (None, []) | e :: r => (Some (escape e), r) end
                else (c1, r1)
    | None => (c1, r1)
    end in
  let v := match c2 with Some c => char_val c | None => 0 end in
  match r2 with
  | q :: r3 => if ceqb q ch_quote then (CHAR, mkPay None None (Some v) None, r3)
               else (LEXER_ERROR, mkPay None None (Some v) None, r2)
  | [] => (LEXER_ERROR, mkPay None None (Some v) None, [])
  end.

Definition is_ellipsis (p : text) : bool :=
  match p with
  | c :: c1 :: c2 :: _ => ceqb c "." && ceqb c1 "." && ceqb c2 "."
  | _ => false
  end.

Definition m2 (p : text) : option tokkind :=
  match p with c :: c1 :: _ => find2 match2_table c c1 | _ => None end.

Definition int_value (isHex : bool) (s : text) : Z :=
  if isHex then wrap32 (strtoll16 s) else wrap32 (strtol10 s).

(** One token; [None] is the endless loop on an unclosed string. *)
Definition acore (p : text) : option (tokkind * payload * text) :=
  match p with
  | [] => Some (TEOF, mkPay None None None None, [])
  | c :: rest =>
      if is_ellipsis p then Some (ELLIPSIS, pay_lex (text_of "..."), skipn 3 p)
      else
      match m2 p with
      | Some k => Some (k, pay_lex (firstn 2 p), skipn 2 p)
      | None =>
      match find1 match1_table c with
      | Some k => Some (k, pay_lex [c], rest)
      | None =>
      if is_alpha c then
        let '(s, r) := span identc p in
        let k := find_kw keyword_table s in
        Some (k, mkPay (Some s)
                   match k with BOOL => Some (text_eqb s (text_of "true")) | _ => None end
                   None None, r)
      else if is_digit c then
        let '(s, isHex, isFloat, r) := anum false false p in
        if isFloat then Some (FLOAT, mkPay (Some s) None None (Some (f_single (strtod s))), r)
        else Some (INT, mkPay (Some s) None (Some (int_value isHex s)) None, r)
      else if ceqb c ch_quote then Some (achar rest)
      else if ceqb c ch_dquote then
        match astr rest with
        | None => None
        | Some (s, r) => Some (STRING, pay_lex s, r)
        end
      else Some (LEXER_ERROR, mkPay None None None None, p)
      end end
  end.

Definition alex (p : text) : option (tokkind * payload * text) * Z :=
  let '(p', d) := triv false p in (acore p', d).

(** ** [get_token] is [alex] *)

Definition orelse {A} (o : option A) (d : A) : A := match o with Some x => x | None => d end.
Definition orelseo {A} (o d : option A) : option A := match o with Some x => Some x | None => d end.

Definition lex_ok (l : lexst) : Prop := lx_last l = None -> lx_rest l = [].

(** [l'] is [l] after a token with payload [pl] leaving [p']. *)
Definition after (l : lexst) (pl : payload) (p' : text) (d : Z) (l' : lexst) : Prop :=
  pend l' = p' /\ lex_ok l' /\
  lx_pos l' + Z.of_nat (List.length (lx_rest l')) = lx_pos l + Z.of_nat (List.length (lx_rest l)) /\
  lx_line l' = lx_line l + d /\
  lx_lexeme l' = orelseo (py_lexeme pl) (lx_lexeme l) /\
  lx_b l' = orelse (py_b pl) (lx_b l) /\
  lx_i l' = orelse (py_i pl) (lx_i l) /\
  lx_f l' = orelse (py_f pl) (lx_f l).

Lemma triv_comment c x rest : is_space c = false -> ceqb c "/" && ceqb x "/" = true ->
  triv false (c :: x :: rest) = triv true (x :: rest).
Proof. intros Es Ec. cbn [triv]. rewrite Es, Ec. reflexivity. Qed.

Lemma skip_trivia_abs rest : forall cmt last pos line,
  let '(last', rest', pos', line') := skip_trivia cmt last rest pos line in
  (last = None -> rest = []) ->
  let '(p', d) := triv cmt (pending last rest) in
  pending last' rest' = p' /\ (last' = None -> rest' = []) /\ line' = line + d /\
  pos' + Z.of_nat (List.length rest') = pos + Z.of_nat (List.length rest).
Proof.
  induction rest as [|x rest IH]; intros cmt last pos line.
  - destruct last as [c|]; cbn [skip_trivia].
    + destruct cmt; [|destruct (is_space c) eqn:Es]; intros _; cbn [pending triv].
      * destruct (negb (ceqb c ch_nl)); repeat split; try (destruct (ceqb c ch_nl); lia).
      * rewrite Es. repeat split; try (destruct (ceqb c ch_nl); lia).
      * rewrite Es. repeat split; try lia.
    + intros _. repeat split; lia.
  - destruct last as [c|]; cbn [skip_trivia]; [|intros H; discriminate H; reflexivity].
    destruct cmt; [|destruct (is_space c) eqn:Es].
    + specialize (IH (negb (ceqb c ch_nl)) (Some x) (pos + 1) (if ceqb c ch_nl then line + 1 else line)).
      destruct (skip_trivia _ _ _ _ _) as [[[last' rest'] pos'] line'].
      intros _. cbn [pending] in IH |- *. remember (x :: rest) as xr. cbn [triv].
      destruct (triv (negb (ceqb c ch_nl)) xr) as [p' d].
      destruct IH as (A & B & C & D); [discriminate|]. subst xr. cbn [List.length] in *.
      repeat split; auto; [|lia]. destruct (ceqb c ch_nl); lia.
    + specialize (IH false (Some x) (pos + 1) (if ceqb c ch_nl then line + 1 else line)).
      destruct (skip_trivia _ _ _ _ _) as [[[last' rest'] pos'] line'].
      intros _. cbn [pending] in IH |- *. remember (x :: rest) as xr. cbn [triv]. rewrite Es.
      destruct (triv false xr) as [p' d].
      destruct IH as (A & B & C & D); [discriminate|]. subst xr. cbn [List.length] in *.
      repeat split; auto; [|lia]. destruct (ceqb c ch_nl); lia.
    + destruct (ceqb c "/" && ceqb x "/") eqn:Ec.
      * specialize (IH true (Some x) (pos + 1) line).
        destruct (skip_trivia _ _ _ _ _) as [[[last' rest'] pos'] line'].
        intros _. cbn [pending] in IH |- *. rewrite (triv_comment c x rest Es Ec).
        destruct (triv true (x :: rest)) as [p' d].
        destruct IH as (A & B & C & D); [discriminate|]. cbn [List.length] in *.
        repeat split; auto; lia.
      * intros _. cbn [pending triv]. rewrite Es, Ec. repeat split; try lia. discriminate.
Qed.

Lemma lex_ident_abs rest : forall acc last pos,
  let '(s, last', rest', pos') := lex_ident acc last rest pos in
  (last = None -> rest = []) ->
  let '(a, b) := span identc (pending last rest) in
  s = rev acc ++ a /\ pending last' rest' = b /\ (last' = None -> rest' = []) /\
  pos' + Z.of_nat (List.length rest') = pos + Z.of_nat (List.length rest).
Proof.
  induction rest as [|x rest IH]; intros acc last pos.
  - destruct last as [c|]; cbn [lex_ident].
    + destruct (is_alnum c || ceqb c "_") eqn:E; intros _; cbn [pending span]; unfold identc; rewrite E.
      * cbn [rev]. repeat split; auto.
      * rewrite app_nil_r. repeat split; auto.
    + intros _. cbn. rewrite app_nil_r. auto.
  - destruct last as [c|]; cbn [lex_ident]; [|intros H; discriminate H; reflexivity].
    destruct (is_alnum c || ceqb c "_") eqn:E.
    + specialize (IH (c :: acc) (Some x) (pos + 1)).
      destruct (lex_ident _ _ _ _) as [[[s last'] rest'] pos']. intros _.
      cbn [pending] in IH |- *. remember (x :: rest) as xr. cbn [span]. unfold identc at 1. rewrite E.
      destruct (span identc xr) as [a b]. destruct IH as (A & B & C & D); [discriminate|].
      subst xr. cbn [List.length] in *. cbn [rev] in A. rewrite <- app_assoc in A.
      repeat split; auto. lia.
    + intros _. cbn [pending span]. unfold identc. rewrite E. rewrite app_nil_r. repeat split; auto. discriminate.
Qed.

Lemma lex_number_abs rest : forall acc hx fl last pos,
  let '(s, h', f', last', rest', pos') := lex_number acc hx fl last rest pos in
  (last = None -> rest = []) ->
  let '(a, h, f, b) := anum hx fl (pending last rest) in
  s = rev acc ++ a /\ h' = h /\ f' = f /\ pending last' rest' = b /\ (last' = None -> rest' = []) /\
  pos' + Z.of_nat (List.length rest') = pos + Z.of_nat (List.length rest).
Proof.
  induction rest as [|x rest IH]; intros acc hx fl last pos.
  - destruct last as [c|]; cbn [lex_number].
    + fold (numc hx fl c). destruct (numc hx fl c) eqn:E; intros _; cbn [pending anum]; rewrite E.
      * cbn [rev]. repeat split; auto.
      * rewrite app_nil_r. repeat split; auto.
    + intros _. cbn. rewrite app_nil_r. auto 7.
  - destruct last as [c|]; cbn [lex_number]; [|intros H; discriminate H; reflexivity].
    fold (numc hx fl c). destruct (numc hx fl c) eqn:E.
    + set (h1 := if ceqb c "x" then true else hx).
      set (f1 := if ceqb c "x" then fl else if ceqb c "." then true else fl).
      specialize (IH (c :: acc) h1 f1 (Some x) (pos + 1)).
      destruct (lex_number _ _ _ _ _ _) as [[[[[s h'] f'] last'] rest'] pos']. intros _.
      cbn [pending] in IH |- *. remember (x :: rest) as xr. cbn [anum]. rewrite E.
      fold h1 f1.
      destruct (anum h1 f1 xr) as [[[a h] f] b]. destruct IH as (A & B & C & D & F & G); [discriminate|].
      subst xr. cbn [List.length] in *. cbn [rev] in A. rewrite <- app_assoc in A.
      repeat split; auto. lia.
    + intros _. cbn [pending anum]. rewrite E. rewrite app_nil_r. repeat split; auto. discriminate.
Qed.

Lemma lex_string_abs : forall n rest acc last pos, (List.length rest <= n)%nat ->
  match astr (last :: rest) with
  | None => lex_string acc last rest pos = None
  | Some (s, b) => exists pos', lex_string acc last rest pos = Some (rev acc ++ s, b, pos') /\
      pos' + Z.of_nat (List.length b) = pos + Z.of_nat (List.length rest)
  end.
Proof.
  induction n as [|n IH]; intros rest acc last pos Hn.
  - destruct rest as [|x r]; [|cbn in Hn; lia]. cbn [astr lex_string].
    destruct (ceqb last ch_dquote); [eexists; rewrite app_nil_r; split; [reflexivity|cbn; lia]|].
    destruct (ceqb last ch_bslash); reflexivity.
  - destruct rest as [|x r].
    + cbn [astr lex_string].
      destruct (ceqb last ch_dquote); [eexists; rewrite app_nil_r; split; [reflexivity|cbn; lia]|].
      destruct (ceqb last ch_bslash); reflexivity.
    + cbn [astr lex_string]. destruct (ceqb last ch_dquote); [eexists; rewrite app_nil_r; split; [reflexivity|lia]|].
      cbn [List.length] in Hn.
      destruct (ceqb last ch_bslash).
      * destruct r as [|y r]; [reflexivity|]. cbn [List.length] in Hn.
        specialize (IH r (escape x :: acc) y (pos + 2) ltac:(lia)).
        destruct (astr (y :: r)) as [[s b]|].
        -- destruct IH as (pos' & -> & E). exists pos'. cbn [rev]. rewrite <- app_assoc.
           split; [reflexivity|]. cbn [List.length]. lia.
        -- exact IH.
      * specialize (IH r (last :: acc) x (pos + 1) ltac:(lia)).
        fold (astr (x :: r)). change (if ceqb x ch_dquote then _ else _) with (astr (x :: r)).
        destruct (astr (x :: r)) as [[s b]|].
        -- destruct IH as (pos' & -> & E). exists pos'. cbn [rev]. rewrite <- app_assoc.
           split; [reflexivity|]. cbn [List.length]. lia.
        -- exact IH.
Qed.

Lemma get_char_abs rest pos :
  let '(c, r, p) := get_char rest pos in
  pending c r = rest /\ (c = None -> r = []) /\
  p + Z.of_nat (List.length r) = pos + Z.of_nat (List.length rest).
Proof.
  destruct rest as [|c r]; cbn [get_char pending List.length]; repeat split; auto; try lia. discriminate.
Qed.

Ltac done_after := unfold after, pend, lex_ok; cbn [set_tok lx_last lx_rest lx_pos lx_line lx_lexeme lx_b lx_i lx_f
   py_lexeme py_b py_i py_f orelse orelseo pay_lex List.length] in *; repeat split; auto; try lia.

Lemma lex_core_abs l c rest pos :
  lx_rest l = rest -> lx_pos l = pos ->
  match acore (c :: rest) with
  | None => lex_core l c rest pos = LHang
  | Some (k, pl, p') => exists l', lex_core l c rest pos = LTok k l' /\ after l pl p' 0 l'
  end.
Proof.
  intros Hr Hp. unfold acore, lex_core.
  change (match rest with | c1 :: c2 :: _ => ceqb c "." && ceqb c1 "." && ceqb c2 "." | _ => false end)
    with (is_ellipsis (c :: rest)).
  destruct (is_ellipsis (c :: rest)) eqn:Ee.
  { destruct rest as [|c1 [|c2 rest]]; try discriminate Ee. cbn [skipn].
    pose proof (get_char_abs rest (pos + 2)) as G. destruct (get_char rest (pos + 2)) as [[n r] p].
    destruct G as (G1 & G2 & G3). eexists; split; [reflexivity|]. done_after.
    rewrite Hr, Hp. cbn [List.length]. lia. }
  assert (M : match rest with c1 :: _ => find2 match2_table c c1 | [] => None end = m2 (c :: rest))
    by (destruct rest; reflexivity).
  rewrite M. destruct (m2 (c :: rest)) as [k|] eqn:E2.
  { destruct rest as [|c1 r1]; [discriminate|]. cbn [firstn skipn].
    pose proof (get_char_abs r1 (pos + 1)) as G. destruct (get_char r1 (pos + 1)) as [[n r] p].
    destruct G as (G1 & G2 & G3). eexists; split; [reflexivity|]. done_after.
    rewrite Hr, Hp. cbn [List.length]. lia. }
  destruct (find1 match1_table c) as [k|].
  { pose proof (get_char_abs rest pos) as G. destruct (get_char rest pos) as [[n r] p].
    destruct G as (G1 & G2 & G3). eexists; split; [reflexivity|]. done_after. rewrite Hr, Hp; lia. }
  destruct (is_alpha c).
  { pose proof (lex_ident_abs rest [] (Some c) pos) as G.
    destruct (lex_ident [] (Some c) rest pos) as [[[s n] r] p]. cbn [pending rev app] in G.
    destruct (span identc (c :: rest)) as [a b]. destruct G as (G1 & G2 & G3 & G4); [discriminate|].
    subst a. eexists; split; [reflexivity|].
    destruct (find_kw keyword_table s); done_after; rewrite Hr, Hp; lia. }
  destruct (is_digit c).
  { pose proof (lex_number_abs rest [] false false (Some c) pos) as G.
    destruct (lex_number [] false false (Some c) rest pos) as [[[[[s h] f] n] r] p]. cbn [pending rev app] in G.
    destruct (anum false false (c :: rest)) as [[[a h'] f'] b].
    destruct G as (G1 & G2 & G3 & G4 & G5 & G6); [discriminate|]. subst a h' f'.
    destruct f; eexists; (split; [reflexivity|]); done_after; rewrite Hr, Hp; lia. }
  destruct (ceqb c ch_quote).
  { unfold lex_char, achar.
    destruct rest as [|c1 r1]; cbn [get_char].
    { eexists; split; [reflexivity|]. done_after. rewrite Hr, Hp. cbn [List.length]. lia. }
    destruct (ceqb c1 ch_bslash).
    - destruct r1 as [|e r1]; cbn [get_char option_map].
      { eexists; split; [reflexivity|]. done_after. rewrite Hr, Hp. cbn [List.length]. lia. }
      destruct r1 as [|q r1]; cbn [get_char].
      { eexists; split; [reflexivity|]. done_after. rewrite Hr, Hp. cbn [List.length]. lia. }
      destruct (ceqb q ch_quote).
      + pose proof (get_char_abs r1 (pos + 1 + 1 + 1)) as G. destruct (get_char r1 (pos + 1 + 1 + 1)) as [[n r] p].
        destruct G as (G1 & G2 & G3). eexists; split; [reflexivity|]. done_after. rewrite Hr, Hp. cbn [List.length]. lia.
      + eexists; split; [reflexivity|]. done_after; try discriminate. rewrite Hr, Hp. cbn [List.length]. lia.
    - destruct r1 as [|q r1]; cbn [get_char].
      { eexists; split; [reflexivity|]. done_after. rewrite Hr, Hp. cbn [List.length]. lia. }
      destruct (ceqb q ch_quote).
      + pose proof (get_char_abs r1 (pos + 1 + 1)) as G. destruct (get_char r1 (pos + 1 + 1)) as [[n r] p].
        destruct G as (G1 & G2 & G3). eexists; split; [reflexivity|]. done_after. rewrite Hr, Hp. cbn [List.length]. lia.
      + eexists; split; [reflexivity|]. done_after; try discriminate. rewrite Hr, Hp. cbn [List.length]. lia. }
  destruct (ceqb c ch_dquote).
  { destruct rest as [|d r]; [reflexivity|].
    pose proof (lex_string_abs (List.length r) r [] d (pos + 1) (le_n _)) as G.
    destruct (astr (d :: r)) as [[s b]|].
    - destruct G as (pos' & -> & G). cbn [rev app].
      pose proof (get_char_abs b pos') as H. destruct (get_char b pos') as [[n r'] p'].
      destruct H as (H1 & H2 & H3). eexists; split; [reflexivity|]. done_after. rewrite Hr, Hp. cbn [List.length]. lia.
    - rewrite G. reflexivity. }
  eexists; split; [reflexivity|]. done_after; try discriminate. rewrite Hr, Hp. lia.
Qed.

(** The whole of [get_token]. *)
Lemma get_token_abs l : lex_ok l ->
  match alex (pend l) with
  | (None, _) => get_token l = LHang
  | (Some (k, pl, p'), d) => exists l', get_token l = LTok k l' /\ after l pl p' d l'
  end.
Proof.
  intros Hok. unfold alex, get_token.
  pose proof (skip_trivia_abs (lx_rest l) false (lx_last l) (lx_pos l) (lx_line l)) as S.
  destruct (skip_trivia _ _ _ _ _) as [[[last' rest'] pos'] line'].
  specialize (S Hok). change (pending (lx_last l) (lx_rest l)) with (pend l) in S.
  destruct (triv false (pend l)) as [p d]. destruct S as (S1 & S2 & S3 & S4).
  destruct last' as [c|]; cbn [pending] in S1; subst p.
  - set (l1 := mkLex rest' pos' (Some c) line' (lx_lexeme l) (lx_b l) (lx_i l) (lx_f l)).
    pose proof (lex_core_abs l1 c rest' pos' eq_refl eq_refl) as C.
    destruct (acore (c :: rest')) as [[[k pl] p']|]; [|exact C].
    destruct C as (l' & E & A). exists l'. split; [exact E|].
    unfold after in *. cbn [l1 lx_rest lx_pos lx_line lx_lexeme lx_b lx_i lx_f] in A.
    intuition (subst; auto; lia).
  - cbn [acore]. rewrite (S2 eq_refl) in *. eexists; split; [reflexivity|].
    unfold after, lex_ok, pend. cbn. cbn in S4. repeat split; auto; lia.
Qed.
