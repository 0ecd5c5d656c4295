From Coq Require Import Decimal DecimalString DecimalZ.
From Verif Require Import Base Float64 Values ValuesSpec Lexer LexerWords Heap Code VM Std StdSpec.
Local Open Scope nat_scope.

Lemma byte_in s i c : nth_error s i = Some c -> byte s i = Ok c.
Proof. unfold byte. intros ->. reflexivity. Qed.
Lemma byte_end s : byte s (length s) = Ok nul.
Proof. unfold byte. rewrite (proj2 (nth_error_None s (length s))) by lia. rewrite Nat.eqb_refl. reflexivity. Qed.

Lemma strlen_from_spec s : nul_free s -> forall k i, i + k = length s -> forall f, k < f -> strlen_from f s i = Ok (length s).
Proof.
  intros F. induction k as [|k IH]; intros i E f Hf; destruct f as [|f]; try lia; cbn [strlen_from].
  - assert (i = length s) by lia. subst i. rewrite byte_end. reflexivity.
  - destruct (nth_error s i) as [c|] eqn:N. 2:{ apply nth_error_None in N. lia. }
    rewrite (byte_in _ _ _ N). destruct (Ascii.eqb_spec c nul) as [->|Ne].
    + destruct F. eapply nth_error_In; eauto.
    + apply IH; lia.
Qed.
Lemma c_strlen_spec s : nul_free s -> c_strlen s = Ok (length s).
Proof. intros F. apply (strlen_from_spec s F (length s) 0); lia. Qed.

Lemma memchr_spec s c : forall n i, i + n <= length s ->
  exists r, memchr_from n s i c = Ok r /\
  match r with
  | Some j => i <= j < i + n /\ nth_error s j = Some c /\ forall k, i <= k < j -> nth_error s k <> Some c
  | None => forall k, i <= k < i + n -> nth_error s k <> Some c
  end.
Proof.
  induction n as [|n IH]; intros i L; cbn [memchr_from].
  - exists None. split; auto. intros; lia.
  - destruct (nth_error s i) as [d|] eqn:N. 2:{ apply nth_error_None in N. lia. }
    rewrite (byte_in _ _ _ N). destruct (Ascii.eqb_spec d c) as [->|Ne].
    + exists (Some i). split; auto. split; [lia|]. split; auto. intros; lia.
    + destruct (IH (S i) ltac:(lia)) as (r & -> & R). exists r. split; auto. destruct r as [j|].
      * destruct R as (R1 & R2 & R3). split; [lia|]. split; auto. intros k K.
        destruct (Nat.eq_dec k i) as [->|]; [congruence|]. apply R3. lia.
      * intros k K. destruct (Nat.eq_dec k i) as [->|]; [congruence|]. apply R. lia.
Qed.

(** Writing from left to right into a fresh buffer *)
Definition part (s : text) (k : nat) : buffer := map Some s ++ repeat None k.
Lemma put_part s k c : put (part s (S k)) (length s) c = Ok (part (s ++ [c]) k).
Proof.
  unfold put, part. rewrite app_length, map_length, repeat_length. destruct (Nat.ltb_spec (length s) (length s + S k)); [|lia].
  f_equal. unfold update. rewrite firstn_app, map_length, Nat.sub_diag, firstn_O, app_nil_r.
  rewrite firstn_all2 by (rewrite map_length; lia). rewrite skipn_app, map_length, Nat.sub_diag.
  rewrite skipn_all2 by (rewrite map_length; lia). cbn [app skipn repeat]. rewrite map_app. cbn. rewrite <- app_assoc. reflexivity.
Qed.
Lemma firstn_S_nth {A} (l : list A) n x : nth_error l n = Some x -> firstn (S n) l = firstn n l ++ [x].
Proof. revert n. induction l as [|a l IH]; intros [|n] E; cbn in *; try discriminate; [inversion E; auto|]. f_equal. auto. Qed.
Lemma skipn_S_nth {A} (l : list A) n x : nth_error l n = Some x -> skipn n l = x :: skipn (S n) l.
Proof. revert n. induction l as [|a l IH]; intros [|n] E; cbn in *; try discriminate; [inversion E; auto|]. auto. Qed.

Lemma copy_part s : forall n j pre k, j + n <= length s -> n <= k ->
  copy n (part pre k) (length pre) s j = Ok (part (pre ++ firstn n (skipn j s)) (k - n)).
Proof.
  induction n as [|n IH]; intros j pre k L K; cbn [copy].
  - rewrite firstn_O, app_nil_r, Nat.sub_0_r. reflexivity.
  - destruct (nth_error s j) as [c|] eqn:N. 2:{ apply nth_error_None in N. lia. }
    rewrite (byte_in _ _ _ N). destruct k as [|k]; [lia|]. rewrite put_part.
    replace (S (length pre)) with (length (pre ++ [c])) by (rewrite app_length; cbn; lia).
    rewrite IH by lia. rewrite (skipn_S_nth _ _ _ N). cbn [firstn Nat.sub]. rewrite <- app_assoc. reflexivity.
Qed.
Lemma taken_part : forall s, taken (part (s ++ [nul]) 0) (length s) = Ok s.
Proof.
  unfold part. induction s as [|c s IH]; [reflexivity|].
  cbn [app map length taken repeat]. cbn [map app repeat] in IH. rewrite IH. reflexivity.
Qed.
Lemma fresh_part n : repeat None n = part [] n.
Proof. reflexivity. Qed.

Section S.
Context {H : Type} (M : machine H) (callf : thread H -> Z -> list value -> outcome (value * thread H)).
Notation go := (run_fprog M callf).
Notation reads := is_string.

Lemma with_string_run v s k (t : thread H) : reads (t_heap t) v s ->
  go (with_string v k) t = go (k (Some s) (length s)) t.
Proof.
  intros (T & F). destruct T as [s|id m s G].
  - destruct F as [F|(id & E)]; [|discriminate]. cbn [with_string]. rewrite c_strlen_spec; auto.
  - cbn [with_string run_fprog ref_of]. rewrite G. reflexivity.
Qed.
Lemma with_chars_run v s k (t : thread H) : text_of_value (t_heap t) v s ->
  go (with_chars v k) t = go (k (Some s)) t.
Proof. intros T. destruct T as [s|id m s G]; [reflexivity|]. cbn [with_chars run_fprog ref_of]. rewrite G. reflexivity. Qed.

Lemma gather_run (t : thread H) : forall args ss, Forall2 (reads (t_heap t)) args ss -> forall k,
  go (gather args k) t = go (k (map (fun s : text => (@Some text s, length s)) ss)) t.
Proof.
  induction 1 as [|v s args ss R F IH]; intros k; [reflexivity|].
  cbn [gather]. rewrite (with_string_run _ _ _ _ R), IH. reflexivity.
Qed.
Lemma total_len ss : total (map (fun s : text => (@Some text s, length s)) ss) = length (concat ss).
Proof. induction ss as [|s ss IH]; [reflexivity|]. cbn. rewrite app_length. unfold total in *. rewrite IH. reflexivity. Qed.
Lemma copy_all_run : forall ss pre k, length (concat ss) <= k ->
  copy_all (map (fun s : text => (@Some text s, length s)) ss) (part pre k) (length pre) =
  Ok (part (pre ++ concat ss) (k - length (concat ss)), length (pre ++ concat ss)).
Proof.
  induction ss as [|s ss IH]; intros pre k L; cbn [map copy_all concat].
  - rewrite app_nil_r. cbn. rewrite Nat.sub_0_r. reflexivity.
  - cbn [concat] in L. rewrite app_length in L. rewrite copy_part by lia. cbn [skipn]. rewrite firstn_all.
    replace (length pre + length s) with (length (pre ++ s)) by apply app_length.
    rewrite IH by lia. rewrite <- app_assoc, (app_length s), Nat.sub_add_distr. reflexivity.
Qed.

Lemma strcat_run args ss (t : thread H) : Forall2 (reads (t_heap t)) args ss ->
  go (std_strcat args) t = Ok (VStr (t_next t), snd (alloc t (BStr (concat ss)))).
Proof.
  intros F. unfold std_strcat. rewrite (gather_run _ _ _ F). cbv zeta. rewrite total_len. change (@repeat (option ascii) None (length (concat ss) + 1)) with (part [] (length (concat ss) + 1)).
  pose proof (copy_all_run ss [] (length (concat ss) + 1) ltac:(lia)) as C. cbn [length app] in C. rewrite C.
  cbn [attempt fst]. replace (length (concat ss) + 1 - length (concat ss)) with 1 by lia. rewrite put_part.
  cbn [attempt]. rewrite taken_part. reflexivity.
Qed.

Lemma substr_run v s a b (t : thread H) : reads (t_heap t) v s -> (Z.of_nat (length s) < 2^31)%Z ->
  (0 <= a < b)%Z -> (b <= Z.of_nat (length s))%Z ->
  forall b0, (b0 = b \/ b0 = -1 /\ b = Z.of_nat (length s))%Z ->
  go (std_substr [v; VInt a; VInt b0]) t =
  Ok (VStr (t_next t), snd (alloc t (BStr (firstn (Z.to_nat (b - a)) (skipn (Z.to_nat a) s))))).
Proof.
  intros R L A B b0 Hb. unfold std_substr. cbn [length Nat.eqb negb arg nth_error].
  rewrite (with_string_run _ _ _ _ R). cbn [arg nth_error number_to_int].
  assert (Ia : in_int32 a = true). { unfold in_int32. apply Bool.andb_true_iff. split; [apply Z.leb_le|apply Z.ltb_lt]; lia. }
  assert (Ib : in_int32 b0 = true). { unfold in_int32. apply Bool.andb_true_iff. split; [apply Z.leb_le|apply Z.ltb_lt]; lia. }
  rewrite Ia, Ib. cbn [attempt].
  assert (E : (if (b0 =? -1)%Z then wrap32 (Z.of_nat (length s)) else b0) = b).
  { destruct Hb as [->|(-> & ->)].
    - destruct (Z.eqb_spec b (-1)); [lia|reflexivity].
    - cbn [Z.eqb Pos.eqb]. apply wrap32_id. lia. }
  rewrite E. destruct (Z.leb_spec 0 a); [|lia]. destruct (Z.leb_spec a b); [|lia]. cbn [andb negb].
  destruct (Z.eqb_spec a b); [lia|]. destruct (Z.leb_spec b (Z.of_nat (length s))); [|lia]. cbn [negb].
  set (m := Z.to_nat (b - a)). change (@repeat (option ascii) None (m + 1)) with (part [] (m + 1)).
  pose proof (copy_part s m (Z.to_nat a) [] (m + 1) ltac:(lia) ltac:(lia)) as C. cbn [length app] in C. rewrite C. cbn [attempt].
  replace (m + 1 - m) with 1 by lia. set (r := firstn m (skipn (Z.to_nat a) s)).
  assert (Lr : length r = m). { unfold r. rewrite firstn_length, skipn_length. lia. }
  rewrite <- Lr. rewrite put_part. cbn [attempt]. rewrite taken_part. reflexivity.
Qed.

Lemma substr_empty v s a (t : thread H) : reads (t_heap t) v s -> (0 <= a < 2^31)%Z ->
  go (std_substr [v; VInt a; VInt a]) t = Ok (VCStr [], t).
Proof.
  intros R A. unfold std_substr. cbn [length Nat.eqb negb arg nth_error].
  rewrite (with_string_run _ _ _ _ R). cbn [arg nth_error number_to_int].
  assert (Ia : in_int32 a = true). { unfold in_int32. apply Bool.andb_true_iff. split; [apply Z.leb_le|apply Z.ltb_lt]; lia. }
  rewrite Ia. cbn [attempt]. destruct (Z.eqb_spec a (-1)); [lia|].
  destruct (Z.leb_spec 0 a); [|lia]. rewrite Z.leb_refl, Z.eqb_refl. reflexivity.
Qed.

Lemma substr_abort v s a b (t : thread H) : reads (t_heap t) v s ->
  in_int32 a = true -> in_int32 b = true -> b <> (-1)%Z -> (a < 0 \/ b < a \/ a < b /\ Z.of_nat (length s) < b)%Z ->
  go (std_substr [v; VInt a; VInt b]) t = Abort.
Proof.
  intros R Ia Ib Nb Bad. unfold std_substr. cbn [length Nat.eqb negb arg nth_error].
  rewrite (with_string_run _ _ _ _ R). cbn [arg nth_error number_to_int]. rewrite Ia, Ib. cbn [attempt].
  destruct (Z.eqb_spec b (-1)); [lia|].
  destruct (Z.leb_spec 0 a); [|reflexivity]. destruct (Z.leb_spec a b); [|reflexivity]. cbn [andb negb].
  destruct (Z.eqb_spec a b); [lia|]. destruct (Z.leb_spec b (Z.of_nat (length s))); [lia|]. reflexivity.
Qed.

Lemma strlen_run v s (t : thread H) : text_of_value (t_heap t) v s -> nul_free s -> (Z.of_nat (length s) < 2^31)%Z ->
  go (std_strlen [v]) t = Ok (VInt (Z.of_nat (length s)), t).
Proof.
  intros T F L. unfold std_strlen. cbn [arg nth_error]. rewrite (with_chars_run _ _ _ _ T), c_strlen_spec by auto.
  cbn [attempt run_fprog]. unfold new_int. rewrite wrap32_id by lia. reflexivity.
Qed.

Lemma wrap32_in z : in_int32 z = true -> wrap32 z = z.
Proof.
  unfold in_int32, wrap32. rewrite Bool.andb_true_iff, Z.leb_le, Z.ltb_lt. intros. rewrite Z.mod_small; lia.
Qed.
Lemma char_val_in c : in_int32 (char_val c) = true.
Proof. destruct c as [[] [] [] [] [] [] [] []]; reflexivity. Qed.

Lemma stridx_run v s i c (t : thread H) : text_of_value (t_heap t) v s -> nul_free s ->
  (0 <= wrap32 i)%Z -> nth_error s (Z.to_nat (wrap32 i)) = Some c ->
  go (std_stridx [v; VInt i]) t = Ok (VInt (char_val c), t).
Proof.
  intros T F I N. unfold std_stridx. cbn [arg nth_error]. rewrite (with_chars_run _ _ _ _ T), c_strlen_spec by auto.
  cbn [attempt arg nth_error to_int]. destruct (Z.leb_spec 0 (wrap32 i)); [|lia].
  assert (Z.to_nat (wrap32 i) < length s) by (apply nth_error_Some; congruence).
  destruct (Z.ltb_spec (wrap32 i) (Z.of_nat (length s))); [|lia]. cbn [andb].
  rewrite (byte_in _ _ _ N). cbn [attempt run_fprog]. unfold new_int. rewrite wrap32_in by apply char_val_in. reflexivity.
Qed.
Lemma stridx_abort v s i (t : thread H) : text_of_value (t_heap t) v s -> nul_free s ->
  in_int32 i = true -> ~ (0 <= i < Z.of_nat (length s))%Z -> go (std_stridx [v; VInt i]) t = Abort.
Proof.
  intros T F I N. unfold std_stridx. cbn [arg nth_error]. rewrite (with_chars_run _ _ _ _ T), c_strlen_spec by auto.
  cbn [attempt arg nth_error to_int]. rewrite wrap32_in by auto.
  destruct (Z.leb_spec 0 i); [|reflexivity]. destruct (Z.ltb_spec i (Z.of_nat (length s))); [lia|]. reflexivity.
Qed.

Lemma strchr_run v s c (t : thread H) : reads (t_heap t) v s -> (Z.of_nat (length s) < 2^31)%Z ->
  exists r, go (std_strchr [v; VInt (Z.of_nat (nat_of_ascii c))]) t = Ok (VInt r, t) /\
  ((r = -1)%Z /\ ~ In c s \/
   (0 <= r)%Z /\ nth_error s (Z.to_nat r) = Some c /\ forall j, (j < Z.to_nat r)%nat -> nth_error s j <> Some c).
Proof.
  intros R L. unfold std_strchr. cbn [arg nth_error]. rewrite (with_string_run _ _ _ _ R). cbn [arg nth_error to_int].
  pose proof (nat_ascii_bounded c) as Bc. rewrite Z.mod_small by lia. rewrite Nat2Z.id, ascii_nat_embedding.
  destruct (memchr_spec s c (length s) 0 ltac:(lia)) as (r & -> & Sp). cbn [attempt run_fprog]. destruct r as [j|].
  - destruct Sp as (J & N & F). eexists. split; [reflexivity|]. right. rewrite wrap32_id by lia. split; [lia|].
    rewrite Nat2Z.id. split; auto. intros k K. apply F. lia.
  - exists (-1)%Z. split; [reflexivity|]. left. split; auto. intros I. apply In_nth_error in I. destruct I as (k & K).
    apply (Sp k); auto. split; [lia|]. apply nth_error_Some. congruence.
Qed.

(** ** Numbers *)
Lemma digits_parse : forall s acc, (forall c, In c s -> is_digit c = true) -> digits 10 acc s = fst (parse_int 10 is_digit acc s).
Proof.
  induction s as [|c s IH]; intros acc D; [reflexivity|]. cbn [digits parse_int].
  rewrite (D c) by (left; auto).
  assert (digit_of c = digit_val c /\ (digit_of c <? 10)%Z = true) as (E & ->).
  { specialize (D c (or_introl eq_refl)). destruct c as [[] [] [] [] [] [] [] []]; try discriminate D; split; reflexivity. }
  rewrite IH by (intros; apply D; right; auto). rewrite E. reflexivity.
Qed.
Lemma dstr_digits d : forall c, In c (text_of (NilEmpty.string_of_uint d)) -> is_digit c = true.
Proof.
  induction d; cbn [NilEmpty.string_of_uint text_of]; intros c I; [destruct I|..];
  (destruct I as [<-|I]; [reflexivity|auto]).
Qed.
Lemma digit_plain c : is_digit c = true -> is_space c = false /\ Ascii.eqb c "-" = false /\ Ascii.eqb c "+" = false /\ Ascii.eqb c "000" = false.
Proof. destruct c as [[] [] [] [] [] [] [] []]; intros E; try discriminate E; repeat split; reflexivity. Qed.
Lemma until_nul_free s : nul_free s -> until_nul s = s.
Proof.
  induction s as [|c s IH]; intros F; [reflexivity|]. cbn. destruct (Ascii.eqb_spec c "000") as [->|].
  - destruct F. left; auto.
  - f_equal. apply IH. intros I. apply F. right; auto.
Qed.
Lemma digits_nul_free s : (forall c, In c s -> is_digit c = true) -> nul_free s.
Proof. intros D I. specialize (D _ I). discriminate. Qed.

Lemma uint_text d : text_of (NilZero.string_of_uint d) = match d with Decimal.Nil => text_of "0" | _ => text_of (NilEmpty.string_of_uint d) end.
Proof. destruct d; reflexivity. Qed.

Lemma mag_uint d : digits 10 0 (text_of (NilZero.string_of_uint d)) = Z.of_N (N.of_uint d).
Proof.
  rewrite uint_text. destruct d as [|d|d|d|d|d|d|d|d|d|d]; [reflexivity|..];
  (rewrite digits_parse by apply dstr_digits; rewrite parse_dec; reflexivity).
Qed.
Lemma zero_digits d : forall c, In c (text_of (NilZero.string_of_uint d)) -> is_digit c = true.
Proof.
  rewrite uint_text. destruct d; [intros c [<-|[]]; reflexivity|..]; apply dstr_digits.
Qed.
Lemma zero_nonempty d : exists c r, text_of (NilZero.string_of_uint d) = c :: r.
Proof. rewrite uint_text. destruct d; cbn; eauto. Qed.

Lemma strtol_dec z : (- 2^63 <= z < 2^63)%Z -> strtol (dec_text z) 10 = z.
Proof.
  intros R. unfold dec_text. pose proof (DecimalZ.of_to z) as E. unfold Z.of_int in E.
  destruct (Z.to_int z) as [d|d]; unfold strtol; cbn [Z.ltb Z.eqb Z.compare Pos.compare Pos.compare_cont Pos.eqb orb NilZero.string_of_int text_of].
  - pose proof (zero_digits d) as D. rewrite (until_nul_free _ (digits_nul_free _ D)).
    destruct (zero_nonempty d) as (c & r & Ec). pose proof (digit_plain c) as P. rewrite Ec in *.
    destruct (P (D c (or_introl eq_refl))) as (S1 & S2 & S3 & _). cbn [skip_space]. rewrite S1, S2, S3. rewrite <- Ec.
    unfold strtol_mag. cbn [Z.eqb orb Pos.eqb]. rewrite mag_uint. unfold Z.of_uint in E. unfold N.of_uint. lia.
  - pose proof (zero_digits d) as D.
    assert (nul_free ("-"%char :: text_of (NilZero.string_of_uint d))) as F.
    { intros [C|I]; [discriminate|]. exact (digits_nul_free _ D I). }
    rewrite (until_nul_free _ F). cbn [skip_space]. change (is_space "-") with false. cbn iota.
    change (Ascii.eqb "-" "-") with true. cbn iota.
    unfold strtol_mag. cbn [Z.eqb orb Pos.eqb]. rewrite mag_uint. unfold Z.of_uint in E. unfold N.of_uint. lia.
Qed.

(** ** At most 20 characters *)
Lemma digits_ge : forall s acc, (0 <= acc)%Z -> (forall c, In c s -> is_digit c = true) -> (acc * 10 ^ Z.of_nat (length s) <= digits 10 acc s)%Z.
Proof.
  induction s as [|c s IH]; intros acc A D; cbn [digits length]; [lia|].
  assert (0 <= digit_of c < 10)%Z as B.
  { specialize (D c (or_introl eq_refl)). destruct c as [[] [] [] [] [] [] [] []]; try discriminate D; (split; [vm_compute; discriminate|vm_compute; reflexivity]). }
  destruct (Z.ltb_spec (digit_of c) 10); [|lia].
  specialize (IH (acc * 10 + digit_of c)%Z ltac:(lia) ltac:(intros; apply D; right; auto)).
  rewrite Nat2Z.inj_succ, Z.pow_succ_r by lia. nia.
Qed.
Lemma pos_uint_len p : (Z.pos p <= 2 ^ 63)%Z -> length (text_of (NilZero.string_of_uint (Pos.to_uint p))) <= 19.
Proof.
  intros B. set (d := Pos.to_uint p).
  assert (U : Decimal.unorm d = d).
  { unfold d. rewrite <- DecimalPos.Unsigned.to_of, DecimalPos.Unsigned.of_to. reflexivity. }
  assert (Ez : d <> Decimal.D0 Decimal.Nil) by apply DecimalPos.Unsigned.to_uint_nonzero.
  assert (En : d <> Decimal.Nil) by apply DecimalPos.Unsigned.to_uint_nonnil.
  assert (Ed : forall d', d <> Decimal.D0 d').
  { intros d' E. rewrite E in U. rewrite DecimalFacts.unorm_D0 in U.
    destruct (Decimal.nzhead d') eqn:Z; try (rewrite DecimalFacts.unorm_nzhead in U by congruence; exact (DecimalFacts.nzhead_nonzero _ _ U)).
    apply DecimalFacts.unorm_0 in Z. rewrite Z in U. inversion U; subst. apply Ez. exact E. }
  assert (V : digits 10 0 (text_of (NilZero.string_of_uint d)) = Z.pos p).
  { rewrite mag_uint. unfold d, N.of_uint. rewrite DecimalPos.Unsigned.of_to. reflexivity. }
  assert (D := zero_digits d).
  assert (G : forall c r, text_of (NilZero.string_of_uint d) = c :: r -> (1 <= digit_of c < 10)%Z).
  { intros c r. rewrite uint_text. destruct d; [congruence|destruct (Ed d); reflexivity|..];
    cbn [NilEmpty.string_of_uint text_of]; intros E; inversion E; subst; (split; [vm_compute; discriminate|vm_compute; reflexivity]). }
  destruct (text_of (NilZero.string_of_uint d)) as [|c r]; cbn [length]; [lia|].
  specialize (G c r eq_refl). cbn [digits] in V. destruct (Z.ltb_spec (digit_of c) 10); [|lia].
  pose proof (digits_ge r (0 * 10 + digit_of c) ltac:(lia) ltac:(intros; apply D; right; auto)) as Gr.
  destruct (Nat.le_gt_cases (length r) 18) as [|L]; [lia|exfalso].
  assert (10 ^ 19 <= 10 ^ Z.of_nat (length r))%Z by (apply Z.pow_le_mono_r; lia).
  assert (2 ^ 63 < 10 ^ 19)%Z by reflexivity. nia.
Qed.
Lemma dec_text_firstn z : (- 2^63 <= z < 2^63)%Z -> firstn 31 (dec_text z) = dec_text z.
Proof.
  intros R. apply firstn_all2. unfold dec_text. destruct z as [|p|p]; cbn [Z.to_int Pos.to_int NilZero.string_of_int].
  - cbn. lia.
  - pose proof (pos_uint_len p ltac:(lia)). lia.
  - pose proof (pos_uint_len p ltac:(lia)). cbn [text_of length]. lia.
Qed.
Lemma dec_text_nul_free z : nul_free (dec_text z).
Proof.
  unfold dec_text. destruct (Z.to_int z) as [d|d]; cbn [NilZero.string_of_int text_of].
  - apply digits_nul_free, zero_digits.
  - intros [C|I]; [discriminate|]. exact (digits_nul_free _ (zero_digits d) I).
Qed.
End S.
