(** C55: files: what a script writes is what it reads back *)
From Verif Require Import Base Float64 Values ValuesSpec Lexer Heap Code VM VMSpec Std StdSpec StdProofs I64 Files.
Local Open Scope nat_scope.

(** ** Strings as C reads them *)
Lemma until_length s : length (until_nul s) <= length s.
Proof. induction s as [|c s IH]; cbn [until_nul length]; [lia|]. destruct (Ascii.eqb c "000"); cbn [length]; lia. Qed.
Lemma until_firstn s : firstn (length (until_nul s)) s = until_nul s.
Proof. induction s as [|c s IH]; cbn [until_nul]; [reflexivity|]. destruct (Ascii.eqb c "000"); cbn [length firstn]; [reflexivity|]. now rewrite IH. Qed.
Lemma strlen_until s : forall k i f, i + k = length s -> k < f -> strlen_from f s i = Ok (i + length (until_nul (skipn i s))).
Proof.
  induction k as [|k IH]; intros i f E L; (destruct f as [|f]; [lia|]); cbn [strlen_from].
  - unfold byte. replace (nth_error s i) with (@None ascii) by (symmetry; apply nth_error_None; lia). rewrite (proj2 (Nat.eqb_eq i (length s))) by lia.
    cbn. rewrite skipn_all2 by lia. cbn. f_equal. lia.
  - destruct (nth_error s i) as [c|] eqn:N; [|apply nth_error_None in N; lia]. rewrite (byte_in _ _ _ N), (skipn_S_nth _ _ _ N). cbn [until_nul].
    change nul with "000"%char. destruct (Ascii.eqb c "000"); [cbn; f_equal; lia|]. rewrite IH by lia. cbn [length]. f_equal. lia.
Qed.
Lemma c_strlen_until s : c_strlen s = Ok (length (until_nul s)).
Proof. unfold c_strlen. rewrite (strlen_until s (length s) 0) by lia. reflexivity. Qed.
Lemma taken_all s : forall k, taken (map Some s ++ repeat None k ++ [Some nul]) (length s) = if k =? 0 then Ok s else UB.
Proof.
  induction s as [|c s IH]; intros k; [destruct k; reflexivity|]. cbn [map app taken length]. rewrite IH. destruct (k =? 0); reflexivity.
Qed.

Section Files.
Context {H : Type} (M : machine H) (get : H -> disk) (put : disk -> H -> H) (prop : nat).
Notation fopen := (std_fopen get put prop).
Notation fread := (std_fread get put). Notation fwrite := (std_fwrite get put). Notation fclose := (std_fclose get put).
Notation fsize := (std_fsize get put). Notation fseek := (std_fseek get put).
Notation read_file := (std_read_file get). Notation write_file := (std_write_file get put).
Notation thread := (thread H).

(** *** What can be observed: the bytes of a file, and the files a value has open *)
Definition file (t : thread) (name : text) : option text := dk_file (get (t_host t)) name.
Definition open_as (t : thread) (v : value) (st : stream) : Prop :=
  exists id m a p, v = VNative id /\ id < t_next t /\ hget (t_heap t) id = Some (mkObj id m (BNative a p)) /\ stream_at (get (t_host t)) a = Some st.
(** Several streams may read a file at once; one that writes must be alone *)
Definition openable (t : thread) (name : text) (m : smode) : Prop :=
  forall a st, In (a, st) (dk_open (get (t_host t))) -> st_name st = name -> m = SRead /\ st_mode st = SRead.
Definition may_write (t : thread) (name : text) : Prop := dk_can (get (t_host t)) name = true.
(** [v] is a string whose characters, up to its end, are [s] *)
Definition named (t : thread) (v : value) (s : text) : Prop := text_of_value (t_heap t) v s /\ nul_free s.
(** Only the disk changed *)
Definition disk_only (t t' : thread) : Prop := exists h, t' = with_host t h.
Definition other_files (t t' : thread) (name : text) : Prop := forall n, n <> name -> file t' n = file t n.

Hypothesis get_put : forall d h, get (put d h) = d.

Lemma cstr_run callf v s k t : text_of_value (t_heap t) v s -> run_fprog M callf (with_cstr v k) t = run_fprog M callf (k s) t.
Proof. intros T. unfold with_cstr. rewrite (with_chars_run M callf _ _ _ _ T). reflexivity. Qed.
Lemma stream_run callf v st k t : open_as t v st -> exists a, stream_at (get (t_host t)) a = Some st /\
  (exists id m p, v = VNative id /\ id < t_next t /\ hget (t_heap t) id = Some (mkObj id m (BNative a p))) /\
  run_fprog M callf (with_stream get v k) t = run_fprog M callf (k (t_host t) a st) t.
Proof.
  intros (id & m & a & p & -> & L & G & S). exists a. split; [exact S|]. split; [eauto 8|]. unfold with_stream. cbn [with_addr run_fprog ref_of]. rewrite G. cbn [o_body run_fprog]. rewrite S. reflexivity.
Qed.
Lemma busy_spec t name m : busy (get (t_host t)) name m = false <-> openable t name m.
Proof.
  unfold openable, busy. induction (dk_open (get (t_host t))) as [|[a st] l IH]; cbn [existsb].
  - split; [intros _ a st []|reflexivity].
  - rewrite Bool.orb_false_iff, IH. cbn [snd]. split.
    + intros (E & F) b st' [[= <- <-]|I] N; [|eauto]. subst name. rewrite text_eqb_refl in E. destruct m; try discriminate; destruct (st_mode st); try discriminate; auto.
    + intros A. split; [|intros b st' I; apply (A b st'); right; exact I]. destruct (text_eqb (st_name st) name) eqn:E; [|reflexivity].
      apply text_eqb_eq in E. destruct (A a st (or_introl eq_refl) E) as (-> & ->). reflexivity.
Qed.
Lemma free_not_busy t name m : openable t name m -> busy (get (t_host t)) name m = false.
Proof. apply busy_spec. Qed.
Lemma found_set d a st st0 : stream_at d a = Some st0 -> stream_at (set_stream d a st) a = Some st.
Proof.
  unfold stream_at, set_stream, set_open. cbn [dk_open]. induction (dk_open d) as [|[b s] l IH]; cbn [find map fst]; [discriminate|].
  destruct (b =? a)%Z eqn:E; cbn [fst]; [rewrite Z.eqb_refl; reflexivity|]. rewrite E. exact IH.
Qed.
Lemma other_set d a b st : a <> b -> stream_at (set_stream d a st) b = stream_at d b.
Proof.
  intros N. unfold stream_at, set_stream, set_open. cbn [dk_open]. induction (dk_open d) as [|[c s] l IH]; cbn [find map fst]; [reflexivity|].
  destruct (Z.eqb_spec c a) as [->|Nc]; cbn [fst].
  - destruct (Z.eqb_spec a b); [congruence|]. exact IH.
  - destruct (c =? b)%Z; [reflexivity|exact IH].
Qed.
Lemma with_host_host (t : thread) h : t_host (with_host t h) = h. Proof. reflexivity. Qed.

(** *** Whole files *)
Theorem write_file_writes : forall t vn vs name s, named t vn name -> text_of_value (t_heap t) vs s -> openable t name SWrite ->
  (may_write t name -> exists t', returns M write_file [vn; vs] t (VBool true) t' /\ disk_only t t' /\
     file t' name = Some (until_nul s) /\ other_files t t' name) /\
  (~ may_write t name -> returns M write_file [vn; vs] t (VBool false) t).
Proof.
  intros t vn vs name s (Tn & Nf) Ts No. pose proof (free_not_busy t name SWrite No) as Bz. unfold may_write. split.
  - intros W. exists (with_host t (put (set_file (set_file (get (t_host t)) name []) name (until_nul s)) (t_host t))). split; [|split; [eexists; reflexivity|]].
    + intros callf. unfold std_write_file. cbn [arg nth_error]. rewrite (cstr_run _ _ _ _ _ Tn), (until_nul_free _ Nf). cbn [run_fprog].
      unfold prepare. rewrite Bz, W. cbn [attempt]. rewrite (cstr_run _ _ _ _ _ Ts), c_strlen_until. cbn [attempt run_fprog]. rewrite until_firstn. reflexivity.
    + unfold file, other_files, file. rewrite with_host_host, get_put. cbn [set_file dk_file]. split; [rewrite text_eqb_refl; reflexivity|].
      intros n Ne. destruct (text_eqb n name) eqn:E; [apply text_eqb_eq in E; congruence|reflexivity].
  - intros W. intros callf. unfold std_write_file. cbn [arg nth_error]. rewrite (cstr_run _ _ _ _ _ Tn), (until_nul_free _ Nf). cbn [run_fprog].
    unfold prepare. rewrite Bz. destruct (dk_can (get (t_host t)) name); [congruence|]. reflexivity.
Qed.
Theorem read_file_reads : forall t vn name, named t vn name -> openable t name SRead ->
  (forall c, file t name = Some c -> exists v t', returns M read_file [vn] t v t' /\ new_string t c v t') /\
  (file t name = None -> returns M read_file [vn] t VNull t).
Proof.
  intros t vn name (Tn & Nf) No. pose proof (free_not_busy t name SRead No) as Bz. unfold file. split.
  - intros c F. exists (VStr (t_next t)), (snd (alloc t (BStr c))). split.
    + intros callf. unfold std_read_file. cbn [arg nth_error]. rewrite (cstr_run _ _ _ _ _ Tn), (until_nul_free _ Nf). cbn [run_fprog].
      unfold prepare. rewrite Bz, F. cbn [attempt run_fprog]. unfold contents. rewrite F. reflexivity.
    + unfold new_string, alloc. cbn [snd t_heap t_stk t_globs t_host t_pc t_fp t_frames]. split; [reflexivity|]. split.
      * apply tv_heap with (m := false). cbn. rewrite Nat.eqb_refl. reflexivity.
      * split; [|auto 10]. intros id Ne. cbn. destruct (Nat.eqb_spec (t_next t) id); [congruence|reflexivity].
  - intros F callf. unfold std_read_file. cbn [arg nth_error]. rewrite (cstr_run _ _ _ _ _ Tn), (until_nul_free _ Nf). cbn [run_fprog].
    unfold prepare. rewrite Bz, F. reflexivity.
Qed.

(** *** Opening *)
Definition spelled (m : smode) (s : text) : Prop :=
  s = text_of (match m with SRead => "r" | SWrite => "w" | SAppend => "a" end) \/ s = text_of (match m with SRead => "rb" | SWrite => "wb" | SAppend => "ab" end).
(** what the file holds once it is opened; [None]: it cannot be *)
Definition starts (t : thread) (name : text) (m : smode) (c : text) : Prop :=
  match m with
  | SRead => file t name = Some c
  | SWrite => may_write t name /\ c = []
  | SAppend => may_write t name /\ c = match file t name with Some c => c | None => [] end
  end.
Lemma mode_spelled m s : spelled m s -> mode_of (until_nul s) = Ok (Some m).
Proof. destruct m; intros [-> | ->]; reflexivity. Qed.
Theorem fopen_opens : forall t vn vm name mode m, named t vn name -> text_of_value (t_heap t) vm mode -> spelled m mode -> openable t name m -> (0 <= t_pc t)%Z ->
  (forall c, starts t name m c -> exists v t', returns M fopen [vn; vm] t v t' /\ open_as t' v (mkStream name m 0) /\
     file t' name = Some c /\ other_files t t' name) /\
  ((forall c, ~ starts t name m c) -> returns M fopen [vn; vm] t VNull t).
Proof.
  intros t vn vm name mode m (Tn & Nf) Tm Sp No Pc. pose proof (free_not_busy t name m No) as Bz.
  assert (Run : forall callf, run_fprog M callf (fopen [vn; vm]) t = run_fprog M callf (attempt (prepare (get (t_host t)) name m) (fun r =>
      match r with
      | None => FRet VNull
      | Some d => FSetHost (put (add_stream d (mkStream name m 0)) (t_host t)) (FNewNative (dk_next d) prop FRet)
      end)) t).
  { intros callf. unfold std_fopen. cbn [arg nth_error]. rewrite (cstr_run _ _ _ _ _ Tn), (cstr_run _ _ _ _ _ Tm), (mode_spelled _ _ Sp), (until_nul_free _ Nf). reflexivity. }
  assert (Go : forall d c, prepare (get (t_host t)) name m = Ok (Some d) -> dk_file d name = Some c -> (forall n, n <> name -> dk_file d n = dk_file (get (t_host t)) n) ->
    exists v t', returns M fopen [vn; vm] t v t' /\ open_as t' v (mkStream name m 0) /\ file t' name = Some c /\ other_files t t' name).
  { intros d c P F O. set (h := put (add_stream d (mkStream name m 0)) (t_host t)). exists (VNative (t_next t)), (snd (alloc (with_host t h) (BNative (dk_next d) prop))). split.
    - intros callf. rewrite Run, P. cbn [attempt run_fprog]. fold h. cbn [t_pc with_host]. unfold oassert. rewrite (proj2 (Z.leb_le 0 (t_pc t)) Pc). reflexivity.
    - unfold open_as, other_files, file. cbn [snd alloc t_host t_heap t_next with_host]. unfold h. rewrite get_put. cbn [add_stream dk_file]. split; [|split; [exact F|exact O]].
      exists (t_next t), false, (dk_next d), prop. split; [reflexivity|]. split; [lia|]. split; [cbn; rewrite Nat.eqb_refl; reflexivity|].
      unfold stream_at, add_stream. cbn [dk_open find fst]. rewrite Z.eqb_refl. reflexivity. }
  assert (Sf : forall d c n, n <> name -> dk_file (set_file d name c) n = dk_file d n).
  { intros d c n Ne. cbn. destruct (text_eqb n name) eqn:E; [apply text_eqb_eq in E; congruence|reflexivity]. }
  unfold starts, may_write, file, prepare in *. rewrite Bz in *. destruct m.
  - split.
    + intros c F. rewrite F in Go. exact (Go _ c eq_refl F (fun _ _ => eq_refl)).
    + intros N callf. rewrite Run. destruct (dk_file (get (t_host t)) name) as [c|]; [destruct (N c eq_refl)|reflexivity].
  - split.
    + intros c (W & ->). rewrite W in Go. apply (Go _ [] eq_refl); [cbn; rewrite text_eqb_refl; reflexivity|intros; apply Sf; auto].
    + intros N callf. rewrite Run. destruct (dk_can (get (t_host t)) name); [destruct (N [] (conj eq_refl eq_refl))|reflexivity].
  - split.
    + intros c (W & ->). rewrite W in Go. apply (Go _ _ eq_refl); [cbn; rewrite text_eqb_refl; reflexivity|intros; apply Sf; auto].
    + intros N callf. rewrite Run. destruct (dk_can (get (t_host t)) name); [destruct (N _ (conj eq_refl eq_refl))|reflexivity].
Qed.

(** *** Between the calls on a file *)
Definition elsewhere (v : value) (name : text) (t t' : thread) : Prop :=
  file t' name = file t name /\ forall st, open_as t v st -> open_as t' v st.

(** *** Writing *)
Definition appending (t : thread) (v : value) (name : text) (m : smode) (c : text) : Prop :=
  exists p, open_as t v (mkStream name m p) /\ file t name = Some c /\ match m with SRead => False | SWrite => p = length c | SAppend => True end.
Lemma write_end c s : write_at c (length c) s = c ++ s.
Proof. unfold write_at. rewrite firstn_all, Nat.sub_diag, skipn_all2 by lia. cbn. rewrite app_nil_r. reflexivity. Qed.
Lemma fwrite_appends t v name m c vs s : appending t v name m c -> text_of_value (t_heap t) vs s ->
  exists t', returns M fwrite [v; vs] t (new_int (Z.of_nat (length (until_nul s)))) t' /\ disk_only t t' /\ appending t' v name m (c ++ until_nul s) /\ other_files t t' name.
Proof.
  intros (p & O & F & P) Ts. pose proof (until_length s) as Le. unfold file in F.
  assert (Fn : firstn (length (until_nul s)) (s ++ [nul]) = until_nul s).
  { rewrite firstn_app. replace (length (until_nul s) - length s) with 0 by lia. cbn [firstn]. rewrite app_nil_r. apply until_firstn. }
  assert (Run : forall a, stream_at (get (t_host t)) a = Some (mkStream name m p) -> exists q,
     snd (f_write (get (t_host t)) a (mkStream name m p) (until_nul s)) = (if length (until_nul s) =? 0 then get (t_host t) else set_stream (set_file (get (t_host t)) name (c ++ until_nul s)) a (mkStream name m q)) /\
     fst (f_write (get (t_host t)) a (mkStream name m p) (until_nul s)) = length (until_nul s) /\ match m with SRead => False | SWrite => q = length (c ++ until_nul s) | SAppend => True end).
  { intros a A. unfold f_write. cbn [st_mode st_name st_pos]. unfold contents. rewrite F. unfold at_pos. cbn [st_name st_mode].
    destruct m; [contradiction| |]; destruct (until_nul s) as [|x y] eqn:U; cbn [length Nat.eqb fst snd].
    - exists p. rewrite app_nil_r. auto.
    - exists (length c + S (length y)). rewrite P. rewrite write_end. rewrite app_length. cbn [length]. auto.
    - exists p. auto.
    - exists (length (c ++ x :: y)). auto. }
  destruct (stream_run (fun _ _ _ => UB) v _ (fun _ _ _ => FUB) t O) as (a & A & (id & mk & pr & -> & L & G) & _).
  destruct (Run a A) as (q & Ed & En & Q). set (d := snd (f_write (get (t_host t)) a (mkStream name m p) (until_nul s))) in *.
  exists (with_host t (put d (t_host t))). split; [|split; [eexists; reflexivity|]].
  - intros callf. unfold std_fwrite. cbn [arg nth_error]. unfold with_stream. cbn [with_addr run_fprog ref_of]. rewrite G. cbn [o_body run_fprog]. rewrite A.
    rewrite (cstr_run _ _ _ _ _ Ts). cbn [length Nat.eqb]. rewrite c_strlen_until. cbn [attempt].
    destruct (Z.ltb_spec (Z.of_nat (length (until_nul s))) 0); [lia|]. destruct (Z.ltb_spec (Z.of_nat (length s) + 1) (Z.of_nat (length (until_nul s)))); [lia|]. cbn [orb].
    rewrite Nat2Z.id, Fn. destruct (f_write (get (t_host t)) a (mkStream name m p) (until_nul s)) as (n0 & d0). cbn [fst snd] in *. subst n0. subst d. reflexivity.
  - unfold appending, open_as, other_files, file. cbn [t_host with_host t_heap t_next]. rewrite get_put, Ed. destruct (Nat.eqb_spec (length (until_nul s)) 0) as [Z0|NZ].
    + destruct (until_nul s); [|discriminate]. rewrite app_nil_r. split; [exists p|auto]. split; [exists id, mk, a, pr; auto|auto].
    + split.
      * exists q. split; [exists id, mk, a, pr; split; [reflexivity|split; [exact L|split; [exact G|]]]|].
        { eapply found_set. unfold set_file, stream_at. cbn [dk_open]. exact A. }
        split; [cbn; rewrite text_eqb_refl; reflexivity|exact Q].
      * intros n Ne. cbn. destruct (text_eqb n name) eqn:E; [apply text_eqb_eq in E; congruence|reflexivity].
Qed.
(** A history of a file that is written: calls of fwrite through [v] with the
    strings [ws], anything else in between that leaves this file alone *)
Inductive writes (v : value) (name : text) : thread -> list text -> thread -> Prop :=
| w_done t : writes v name t [] t
| w_call t vs s r t1 l t2 : text_of_value (t_heap t) vs s -> returns M fwrite [v; vs] t r t1 -> writes v name t1 l t2 -> writes v name t (s :: l) t2
| w_else t t1 l t2 : elsewhere v name t t1 -> writes v name t1 l t2 -> writes v name t l t2.
Lemma returns_once fn args t v t' w t'' : returns M fn args t v t' -> returns M fn args t w t'' -> v = w /\ t' = t''.
Proof. intros A B. specialize (A (fun _ _ _ => UB)). specialize (B (fun _ _ _ => UB)). rewrite A in B. injection B. auto. Qed.
Lemma appending_else v name m c t t' : elsewhere v name t t' -> appending t v name m c -> appending t' v name m c.
Proof. intros (F & O) (p & A & B & P). exists p. rewrite F. auto. Qed.
Lemma writes_append v name t ws t' : writes v name t ws t' -> forall m c, appending t v name m c -> appending t' v name m (c ++ concat (map until_nul ws)).
Proof.
  induction 1 as [t|t vs s r t1 l t2 Ts R W IH|t t1 l t2 E W IH]; intros m c A.
  - cbn. rewrite app_nil_r. exact A.
  - destruct (fwrite_appends _ _ _ _ _ _ _ A Ts) as (t1' & R' & _ & A' & _). destruct (returns_once _ _ _ _ _ _ _ R R') as (_ & ->).
    cbn [map concat]. rewrite app_assoc. apply IH. exact A'.
  - apply IH. eapply appending_else; eauto.
Qed.
Lemma fclose_closes t v st : open_as t v st -> exists t', returns M fclose [v] t VNull t' /\ disk_only t t' /\ (forall n, file t' n = file t n) /\
  (forall callf k, run_fprog M callf (with_stream get v k) t' = UB).
Proof.
  intros O. destruct (stream_run (fun _ _ _ => UB) v _ (fun _ _ _ => FUB) t O) as (a & A & (id & mk & pr & -> & L & G) & _).
  exists (with_host t (put (without (get (t_host t)) a) (t_host t))). split; [|split; [eexists; reflexivity|]].
  - intros callf. unfold std_fclose. cbn [arg nth_error]. unfold with_stream. cbn [with_addr run_fprog ref_of]. rewrite G. cbn [o_body run_fprog]. rewrite A. reflexivity.
  - unfold file. cbn [t_host with_host]. rewrite get_put. split; [reflexivity|]. intros callf k. unfold with_stream. cbn [with_addr run_fprog ref_of t_heap with_host]. rewrite G. cbn [o_body run_fprog t_host with_host].
    rewrite get_put. replace (stream_at (without (get (t_host t)) a) a) with (@None stream); [reflexivity|]. unfold stream_at, without, set_open. cbn [dk_open].
    induction (dk_open (get (t_host t))) as [|x l IH]; [reflexivity|]. cbn [filter]. destruct (fst x =? a)%Z eqn:E; cbn [negb find]; [exact IH|]. rewrite E. exact IH.
Qed.

(** What is written between opening and closing is what the file then holds: all
    of it for mode w, after what was there for mode a. *)
Theorem written_file : forall t vn vm name mode m, named t vn name -> text_of_value (t_heap t) vm mode -> spelled m mode -> openable t name m -> (0 <= t_pc t)%Z ->
  m = SWrite \/ m = SAppend -> may_write t name ->
  exists v t1, returns M fopen [vn; vm] t v t1 /\ forall ws t2, writes v name t1 ws t2 ->
    (forall vs s, text_of_value (t_heap t2) vs s -> exists t', returns M fwrite [v; vs] t2 (new_int (Z.of_nat (length (until_nul s)))) t') /\
    exists t3, returns M fclose [v] t2 VNull t3 /\
      file t3 name = Some ((match m, file t name with SAppend, Some old => old | _, _ => [] end) ++ concat (map until_nul ws)).
Proof.
  intros t vn vm name mode m Nm Tm Sp No Pc Hm W. destruct (fopen_opens t vn vm name mode m Nm Tm Sp No Pc) as (Op & _).
  destruct (Op (match m, file t name with SAppend, Some old => old | _, _ => [] end)) as (v & t1 & R & O & F & _).
  { destruct Hm as [-> | ->]; cbn [starts]; auto. }
  exists v, t1. split; [exact R|]. intros ws t2 Ws. set (c := match m, file t name with SAppend, Some old => old | _, _ => [] end) in *.
  assert (A : appending t1 v name m c).
  { exists 0. split; [exact O|]. split; [exact F|]. destruct Hm as [-> | ->]; reflexivity. }
  pose proof (writes_append _ _ _ _ _ Ws _ _ A) as A2. split.
  - intros vs s Ts. destruct (fwrite_appends _ _ _ _ _ _ _ A2 Ts) as (t' & R' & _). exists t'. exact R'.
  - destruct A2 as (p & O2 & F2 & _). destruct (fclose_closes _ _ _ O2) as (t3 & R3 & _ & F3 & _). exists t3. rewrite F3. auto.
Qed.

(** *** Reading *)
Definition positioned (t : thread) (v : value) (name c : text) (p : nat) : Prop := open_as t v (mkStream name SRead p) /\ file t name = Some c.
Lemma fread_reads t v name c p k : positioned t v name c p -> (0 <= k < 2^31)%Z ->
  let s := firstn (Z.to_nat k) (skipn p c) in
  (length s = Z.to_nat k -> exists r t', returns M fread [v; VInt k] t r t' /\ text_of_value (t_heap t') r s /\ positioned t' v name c (p + length s)) /\
  (length s <> Z.to_nat k -> undefined M fread [v; VInt k] t).
Proof.
  intros (O & F) K s. destruct (stream_run (fun _ _ _ => UB) v _ (fun _ _ _ => FUB) t O) as (a & A & (id & mk & pr & -> & L & G) & _). unfold file in F.
  assert (Run : forall callf, run_fprog M callf (fread [VNative id; VInt k]) t =
    run_fprog M callf (FSetHost (put (set_stream (get (t_host t)) a (mkStream name SRead (p + length s))) (t_host t))
       (attempt (taken (map Some s ++ repeat None (Z.to_nat k - length s) ++ [Some nul]) (length s)) (fun r => FNewStr r FRet))) t).
  { intros callf. unfold std_fread. cbn [arg nth_error]. unfold with_stream. cbn [with_addr run_fprog ref_of]. rewrite G. cbn [o_body run_fprog]. rewrite A.
    cbn [number_to_int]. unfold in_int32. destruct (Z.leb_spec (- 2 ^ 31) k); [|lia]. destruct (Z.ltb_spec k (2 ^ 31)); [|lia]. cbn [andb attempt].
    destruct (Z.ltb_spec k 0); [lia|]. unfold f_read. cbn [st_mode st_pos st_name]. unfold contents. rewrite F. reflexivity. }
  pose proof (firstn_le_length (Z.to_nat k) (skipn p c)) as Le. fold s in Le. split.
  - intros Es. set (t1 := with_host t (put (set_stream (get (t_host t)) a (mkStream name SRead (p + length s))) (t_host t))). exists (VStr (t_next t)), (snd (alloc t1 (BStr s))). split; [|split].
    + intros callf. rewrite Run, taken_all. replace (Z.to_nat k - length s =? 0) with true by (symmetry; apply Nat.eqb_eq; lia). reflexivity.
    + apply tv_heap with (m := false). cbn. rewrite Nat.eqb_refl. reflexivity.
    + split; [|unfold file; cbn [alloc snd t_host]; unfold t1; cbn [with_host t_host]; rewrite get_put; exact F].
      exists id, mk, a, pr. cbn [alloc snd t_host t_heap t_next]. unfold t1. cbn [with_host t_host t_heap t_next]. split; [reflexivity|]. split; [lia|]. split.
      * cbn. destruct (Nat.eqb_spec (t_next t) id); [lia|exact G].
      * rewrite get_put. eapply found_set. exact A.
  - intros Es callf. rewrite Run, taken_all. replace (Z.to_nat k - length s =? 0) with false by (symmetry; apply Nat.eqb_neq; lia). reflexivity.
Qed.
Inductive reads (v : value) (name : text) : thread -> list text -> thread -> Prop :=
| r_done t : reads v name t [] t
| r_call t k r s t1 l t2 : (0 <= k < 2^31)%Z -> returns M fread [v; VInt k] t r t1 -> text_of_value (t_heap t1) r s -> reads v name t1 l t2 -> reads v name t (s :: l) t2
| r_else t t1 l t2 : elsewhere v name t t1 -> reads v name t1 l t2 -> reads v name t l t2.
Lemma text_once (h : heap) v s s' : text_of_value h v s -> text_of_value h v s' -> s = s'.
Proof. intros A B. inversion A; subst; inversion B; subst; congruence. Qed.
Lemma reads_through v name t l t' : reads v name t l t' -> forall c p, positioned t v name c p -> p <= length c ->
  exists rest, skipn p c = concat l ++ rest /\ positioned t' v name c (p + length (concat l)).
Proof.
  induction 1 as [t|t k r s t1 l t2 K R Ts Rs IH|t t1 l t2 E Rs IH]; intros c p P Le.
  - exists (skipn p c). cbn. rewrite Nat.add_0_r. auto.
  - destruct (fread_reads _ _ _ _ _ _ P K) as (Y & N). destruct (Nat.eq_dec (length (firstn (Z.to_nat k) (skipn p c))) (Z.to_nat k)) as [Es|Ns].
    + destruct (Y Es) as (r' & t1' & R' & T' & P'). destruct (returns_once _ _ _ _ _ _ _ R R') as (<- & <-). pose proof (text_once _ _ _ _ Ts T') as Ex. set (s0 := firstn (Z.to_nat k) (skipn p c)) in *. subst s.
      assert (Le2 : p + length s0 <= length c).
      { subst s0. rewrite firstn_length, skipn_length. lia. }
      destruct (IH _ _ P' Le2) as (rest & Er & P2). exists rest. cbn [concat]. rewrite app_length, Nat.add_assoc. split; [|exact P2].
      rewrite <- app_assoc, <- Er. rewrite <- (firstn_skipn (Z.to_nat k) (skipn p c)) at 1. fold s0. f_equal. rewrite Es.
      clear. revert c. induction p as [|p IHp]; intros c; [reflexivity|]. destruct c; [now rewrite !skipn_nil|]. cbn [skipn plus]. apply IHp.
    + specialize (N Ns (fun _ _ _ => UB)). specialize (R (fun _ _ _ => UB)). congruence.
  - apply IH; [|exact Le]. destruct P as (O & F), E as (E1 & E2). split; [auto|]. rewrite E1. exact F.
Qed.

(** The strings read one after the other are the file, cut where the lengths asked
    for say; asking for more than what is left is undefined (finding F88). *)
Theorem read_back : forall t vn vm name mode c, named t vn name -> text_of_value (t_heap t) vm mode -> spelled SRead mode -> openable t name SRead -> (0 <= t_pc t)%Z ->
  file t name = Some c ->
  exists v t1, returns M fopen [vn; vm] t v t1 /\ forall l t2, reads v name t1 l t2 ->
    exists rest, c = concat l ++ rest /\
    forall k, (0 <= k < 2^31)%Z ->
      ((k <= Z.of_nat (length rest))%Z -> exists r t3, returns M fread [v; VInt k] t2 r t3 /\ text_of_value (t_heap t3) r (firstn (Z.to_nat k) rest)) /\
      ((k > Z.of_nat (length rest))%Z -> undefined M fread [v; VInt k] t2).
Proof.
  intros t vn vm name mode c Nm Tm Sp No Pc F. destruct (fopen_opens t vn vm name mode SRead Nm Tm Sp No Pc) as (Op & _).
  destruct (Op c F) as (v & t1 & R & O & F1 & _). exists v, t1. split; [exact R|]. intros l t2 Rs.
  destruct (reads_through _ _ _ _ _ Rs c 0 (conj O F1) ltac:(lia)) as (rest & E & P). cbn [skipn plus] in E, P. exists rest. split; [exact E|]. intros k K.
  assert (Sk : skipn (length (concat l)) c = rest).
  { rewrite E, skipn_app, skipn_all, Nat.sub_diag. reflexivity. }
  destruct (fread_reads _ _ _ _ _ _ P K) as (Y & N). rewrite Sk in Y, N. rewrite firstn_length in Y, N. split.
  - intros Le. destruct (Y ltac:(lia)) as (r & t3 & R3 & T3 & _). exists r, t3. auto.
  - intros Gt. apply N. lia.
Qed.

(** Seeking, and asking for the size, which also moves to the start: in any mode *)
Theorem fseek_moves : forall t v name m p k, open_as t v (mkStream name m p) -> (0 <= k < 2^31)%Z ->
  exists t', returns M fseek [v; VInt k] t VNull t' /\ disk_only t t' /\ open_as t' v (mkStream name m (Z.to_nat k)) /\ (forall n, file t' n = file t n).
Proof.
  intros t v name m p k O K. destruct (stream_run (fun _ _ _ => UB) v _ (fun _ _ _ => FUB) t O) as (a & A & (id & mk & pr & -> & L & G) & _).
  exists (with_host t (put (set_stream (get (t_host t)) a (mkStream name m (Z.to_nat k))) (t_host t))). split; [|split; [eexists; reflexivity|split]].
  - intros callf. unfold std_fseek. cbn [arg nth_error]. unfold with_stream. cbn [with_addr run_fprog ref_of]. rewrite G. cbn [o_body run_fprog]. rewrite A.
    cbn [number_to_int]. unfold in_int32. destruct (Z.leb_spec (- 2 ^ 31) k); [|lia]. destruct (Z.ltb_spec k (2 ^ 31)); [|lia]. cbn [andb attempt].
    destruct (Z.ltb_spec k 0); [lia|]. reflexivity.
  - exists id, mk, a, pr. cbn [t_host with_host t_heap t_next]. split; [reflexivity|]. split; [lia|]. split; [exact G|]. rewrite get_put. eapply found_set. exact A.
  - unfold file. cbn [t_host with_host]. rewrite get_put. reflexivity.
Qed.
Theorem fsize_counts : forall t v name m c p, open_as t v (mkStream name m p) -> file t name = Some c ->
  exists t', returns M fsize [v] t (new_int (Z.of_nat (length c))) t' /\ disk_only t t' /\ open_as t' v (mkStream name m 0) /\ (forall n, file t' n = file t n).
Proof.
  intros t v name m c p O F. destruct (stream_run (fun _ _ _ => UB) v _ (fun _ _ _ => FUB) t O) as (a & A & (id & mk & pr & -> & L & G) & _). unfold file in F.
  exists (with_host t (put (set_stream (get (t_host t)) a (mkStream name m 0)) (t_host t))). split; [|split; [eexists; reflexivity|split]].
  - intros callf. unfold std_fsize. cbn [arg nth_error]. unfold with_stream. cbn [with_addr run_fprog ref_of]. rewrite G. cbn [o_body run_fprog]. rewrite A.
    unfold contents. cbn [st_name]. rewrite F. reflexivity.
  - exists id, mk, a, pr. cbn [t_host with_host t_heap t_next]. split; [reflexivity|]. split; [lia|]. split; [exact G|]. rewrite get_put. eapply found_set. exact A.
  - unfold file. cbn [t_host with_host]. rewrite get_put. reflexivity.
Qed.

(** *** Writing in place, with the number of bytes given *)
(** The file with [s] at place [p]: bytes outside keep their value, a gap is NULs *)
Definition overwritten (c : text) (p : nat) (s c' : text) : Prop :=
  length c' = Nat.max (length c) (p + length s) /\
  forall i, i < length c' -> nth i c' nul = if (p <=? i) && (i <? p + length s) then nth (i - p) s nul else nth i c nul.
Lemma write_at_spec c p s : s <> [] -> overwritten c p s (write_at c p s).
Proof.
  intros Ne. unfold overwritten, write_at. split; [rewrite !app_length, firstn_length, repeat_length, skipn_length; lia|].
  intros i Li. destruct (Nat.lt_ge_cases i p) as [Lp|Gp].
  - replace (p <=? i) with false by (symmetry; apply Nat.leb_gt; lia). cbn [andb]. destruct (Nat.lt_ge_cases i (length c)) as [Lc|Gc].
    + rewrite app_nth1 by (rewrite firstn_length; lia). clear - Lp. revert i p Lp. induction c as [|x c IH]; intros i p Lp; [now rewrite firstn_nil|]. destruct p; [lia|]. destruct i; [reflexivity|]. cbn. apply IH. lia.
    + rewrite app_nth2 by (rewrite firstn_length; lia). rewrite firstn_length. rewrite app_nth1 by (rewrite repeat_length; lia). rewrite nth_repeat. rewrite nth_overflow by lia. reflexivity.
  - replace (p <=? i) with true by (symmetry; apply Nat.leb_le; lia). cbn [andb]. rewrite app_assoc.
    assert (E1 : length (firstn p c ++ repeat nul (p - length c)) = p) by (rewrite app_length, firstn_length, repeat_length; lia).
    rewrite app_nth2 by lia. rewrite E1. destruct (Nat.ltb_spec i (p + length s)).
    + rewrite app_nth1 by lia. reflexivity.
    + rewrite app_nth2 by lia. replace (nth i c nul) with (nth (i - p - length s) (skipn (p + length s) c) nul); [reflexivity|].
      rewrite <- (firstn_skipn (p + length s) c) at 2. destruct (Nat.lt_ge_cases (length c) (p + length s)) as [Sh|Lg].
      * rewrite !skipn_all2 by lia. rewrite app_nil_r, (nth_overflow (firstn _ _)) by (rewrite firstn_length; lia). destruct (i - p - length s); reflexivity.
      * rewrite app_nth2 by (rewrite firstn_length; lia). rewrite firstn_length. f_equal. lia.
Qed.
(** [k] bytes of the string are written, its final NUL may be one of them; more
    than that, or fewer than none, is undefined *)
Theorem fwrite_in_place : forall t v name c p vs s k, open_as t v (mkStream name SWrite p) -> file t name = Some c -> text_of_value (t_heap t) vs s -> (- 2^31 <= k < 2^31)%Z ->
  ((0 < k <= Z.of_nat (length s) + 1)%Z -> exists t' c', returns M fwrite [v; vs; VInt k] t (VInt k) t' /\ disk_only t t' /\
     file t' name = Some c' /\ overwritten c p (firstn (Z.to_nat k) (s ++ ["000"%char])) c' /\ other_files t t' name /\
     open_as t' v (mkStream name SWrite (p + Z.to_nat k))) /\
  (k = 0%Z -> exists t', returns M fwrite [v; vs; VInt k] t (VInt 0) t' /\ disk_only t t' /\ open_as t' v (mkStream name SWrite p) /\ forall n, file t' n = file t n) /\
  ((k < 0 \/ Z.of_nat (length s) + 1 < k)%Z -> undefined M fwrite [v; vs; VInt k] t).
Proof.
  intros t v name c p vs s k O F Ts K. destruct (stream_run (fun _ _ _ => UB) v _ (fun _ _ _ => FUB) t O) as (a & A & (id & mk & pr & -> & L & G) & _). unfold file in F.
  assert (Run : forall callf, run_fprog M callf (fwrite [VNative id; vs; VInt k]) t = run_fprog M callf (if ((k <? 0) || (Z.of_nat (length s) + 1 <? k))%Z then FUB
    else let '(n, d) := f_write (get (t_host t)) a (mkStream name SWrite p) (firstn (Z.to_nat k) (s ++ [nul])) in FSetHost (put d (t_host t)) (FRet (new_int (Z.of_nat n)))) t).
  { intros callf. unfold std_fwrite. cbn [arg nth_error]. unfold with_stream. cbn [with_addr run_fprog ref_of]. rewrite G. cbn [o_body run_fprog]. rewrite A.
    rewrite (cstr_run _ _ _ _ _ Ts). cbn [length Nat.eqb nth_error number_to_int]. unfold in_int32. destruct (Z.leb_spec (- 2 ^ 31) k); [|lia]. destruct (Z.ltb_spec k (2 ^ 31)); [|lia]. reflexivity. }
  split; [|split].
  - intros Kr. set (x := firstn (Z.to_nat k) (s ++ [nul])) in *. assert (Lx : length x = Z.to_nat k) by (unfold x; rewrite firstn_length, app_length; cbn; lia).
    assert (Nx : x <> []) by (intros E; rewrite E in Lx; cbn in Lx; lia).
    assert (Fw : f_write (get (t_host t)) a (mkStream name SWrite p) x = (length x, set_stream (set_file (get (t_host t)) name (write_at c p x)) a (mkStream name SWrite (p + length x)))).
    { unfold f_write. cbn [st_mode st_name st_pos]. unfold contents. rewrite F. destruct x; [congruence|reflexivity]. }
    exists (with_host t (put (set_stream (set_file (get (t_host t)) name (write_at c p x)) a (mkStream name SWrite (p + length x))) (t_host t))), (write_at c p x). split; [|split; [eexists; reflexivity|]].
    + intros callf. rewrite Run. destruct (Z.ltb_spec k 0); [lia|]. destruct (Z.ltb_spec (Z.of_nat (length s) + 1) k); [lia|]. cbn [orb]. rewrite Fw. cbn [run_fprog]. rewrite Lx, Z2Nat.id by lia.
      unfold new_int. rewrite wrap32_in by (unfold in_int32; apply andb_true_iff; split; [apply Z.leb_le|apply Z.ltb_lt]; lia). reflexivity.
    + unfold file, other_files, file, open_as. cbn [t_host with_host t_heap t_next]. rewrite get_put. split; [cbn; rewrite text_eqb_refl; reflexivity|]. split; [apply write_at_spec; exact Nx|]. split.
      * intros n Ne. cbn. destruct (text_eqb n name) eqn:E; [apply text_eqb_eq in E; congruence|reflexivity].
      * rewrite <- Lx. exists id, mk, a, pr. split; [reflexivity|split; [exact L|split; [exact G|]]]. eapply found_set. unfold set_file, stream_at. cbn [dk_open]. exact A.
  - intros ->. exists (with_host t (put (get (t_host t)) (t_host t))). split; [|split; [eexists; reflexivity|]].
    + intros callf. rewrite Run. destruct (Z.ltb_spec (Z.of_nat (length s) + 1) 0); [lia|]. reflexivity.
    + unfold file, open_as. cbn [t_host with_host t_heap t_next]. rewrite get_put. split; [exists id, mk, a, pr; auto|reflexivity].
  - intros B callf. rewrite Run. destruct (Z.ltb_spec k 0); [reflexivity|]. destruct (Z.ltb_spec (Z.of_nat (length s) + 1) k); [reflexivity|lia].
Qed.

(** A file that is being written must not be opened again, nor one that is open be
    opened for writing *)
Theorem open_twice : forall t vn name, named t vn name ->
  (forall vm mode m, text_of_value (t_heap t) vm mode -> spelled m mode -> ~ openable t name m -> undefined M fopen [vn; vm] t) /\
  (~ openable t name SRead -> undefined M read_file [vn] t) /\
  (forall vs, ~ openable t name SWrite -> undefined M write_file [vn; vs] t).
Proof.
  intros t vn name (Tn & Nf). assert (Bz : forall m, ~ openable t name m -> busy (get (t_host t)) name m = true).
  { intros m N. destruct (busy (get (t_host t)) name m) eqn:B; [reflexivity|]. destruct N. apply busy_spec. exact B. }
  split; [|split].
  - intros vm mode m Tm Sp N callf. unfold std_fopen. cbn [arg nth_error]. rewrite (cstr_run _ _ _ _ _ Tn), (cstr_run _ _ _ _ _ Tm), (mode_spelled _ _ Sp), (until_nul_free _ Nf). cbn [attempt run_fprog].
    unfold prepare. rewrite (Bz _ N). reflexivity.
  - intros N callf. unfold std_read_file. cbn [arg nth_error]. rewrite (cstr_run _ _ _ _ _ Tn), (until_nul_free _ Nf). cbn [run_fprog]. unfold prepare. rewrite (Bz _ N). reflexivity.
  - intros vs N callf. unfold std_write_file. cbn [arg nth_error]. rewrite (cstr_run _ _ _ _ _ Tn), (until_nul_free _ Nf). cbn [run_fprog]. unfold prepare. rewrite (Bz _ N). reflexivity.
Qed.
(** A closed file: every further use is undefined *)
Theorem closed_file : forall t v st args, open_as t v st -> exists t', returns M fclose [v] t VNull t' /\
  undefined M fclose [v] t' /\ undefined M fsize [v] t' /\ undefined M fread (v :: args) t' /\ undefined M fwrite (v :: args) t' /\ undefined M fseek (v :: args) t'.
Proof.
  intros t v st args O. destruct (fclose_closes _ _ _ O) as (t' & R & _ & _ & U). exists t'. split; [exact R|]. repeat split; intros callf; apply U.
Qed.

(** *** Calls on other files are elsewhere *)
Definition apart (d : disk) (a : Z) (name : text) (d' : disk) : Prop := stream_at d' a = stream_at d a /\ dk_file d' name = dk_file d name.
Definition leaves (a : Z) (name : text) (id : nat) (p : fprog H) (t : thread) : Prop := forall callf r t', run_fprog M callf p t = Ok (r, t') ->
  apart (get (t_host t)) a name (get (t_host t')) /\ hget (t_heap t') id = hget (t_heap t) id /\ t_next t <= t_next t'.
Lemma apart_refl d a name : apart d a name d. Proof. split; reflexivity. Qed.
Lemma leaves_ret a name id v t : leaves a name id (FRet v) t.
Proof. intros callf r t' E. injection E as _ <-. split; [apply apart_refl|auto]. Qed.
Lemma leaves_set a name id d v t : apart (get (t_host t)) a name d -> leaves a name id (FSetHost (put d (t_host t)) (FRet v)) t.
Proof. intros A callf r t' E. injection E as _ <-. cbn [t_host with_host t_heap t_next]. rewrite get_put. auto. Qed.
Lemma leaves_str a name id d x t : id < t_next t -> apart (get (t_host t)) a name d -> leaves a name id (FSetHost (put d (t_host t)) (FNewStr x FRet)) t.
Proof.
  intros L A callf r t' E. injection E as _ <-. cbn [alloc snd t_host with_host t_heap t_next]. rewrite get_put. split; [exact A|]. split; [|lia].
  cbn. destruct (Nat.eqb_spec (t_next t) id); [lia|reflexivity].
Qed.
Lemma leaves_cstr a name id v k t : (forall s, leaves a name id (k s) t) -> leaves a name id (with_cstr v k) t.
Proof.
  intros K callf r t' E. unfold with_cstr, with_chars in E. destruct v; try discriminate E; [|exact (K _ _ _ _ E)].
  cbn [run_fprog ref_of] in E. destruct (hget (t_heap t) _) as [o|]; [|discriminate]. destruct (o_body o); try discriminate. exact (K _ _ _ _ E).
Qed.
Lemma leaves_arg a name id args i k t : (forall v, leaves a name id (k v) t) -> leaves a name id (arg args i k) t.
Proof. intros K callf r t' E. unfold arg in E. destruct (nth_error args i); [exact (K _ _ _ _ E)|discriminate]. Qed.
Lemma leaves_attempt {A} a name id (o : outcome A) k t : (forall x, o = Ok x -> leaves a name id (k x) t) -> leaves a name id (attempt o k) t.
Proof. intros K callf r t' E. destruct o; try discriminate E. exact (K _ eq_refl _ _ _ E). Qed.
Lemma apart_prepare d a name n m d' : prepare d n m = Ok (Some d') -> n <> name -> apart d a name d'.
Proof.
  unfold prepare. destruct (busy d n m); [discriminate|]. intros E Ne.
  assert (X : forall c, apart d a name (set_file d n c)) by (intros c; split; [reflexivity|]; cbn; destruct (text_eqb name n) eqn:Q; [apply text_eqb_eq in Q; congruence|reflexivity]).
  destruct m; [destruct (dk_file d n)|destruct (dk_can d n)|destruct (dk_can d n)]; try discriminate; injection E as <-; auto. apply apart_refl.
Qed.
Lemma apart_stream d a b st name : b <> a -> apart d a name (set_stream d b st).
Proof. intros Ne. split; [apply other_set; auto|reflexivity]. Qed.
Lemma apart_file d a name n c d' : n <> name -> apart d a name d' -> apart d a name (set_file d' n c).
Proof. intros Ne (A & B). split; [exact A|]. cbn. destruct (text_eqb name n) eqn:E; [apply text_eqb_eq in E; congruence|exact B]. Qed.
Lemma apart_then d a name b st n c : b <> a -> n <> name -> apart d a name (set_stream (set_file d n c) b st).
Proof.
  intros Nb Nn. split; [rewrite other_set by auto; reflexivity|]. cbn. destruct (text_eqb name n) eqn:E; [apply text_eqb_eq in E; congruence|reflexivity].
Qed.
Lemma apart_without d a b name : b <> a -> apart d a name (without d b).
Proof.
  intros Ne. split; [|reflexivity]. unfold stream_at, without, set_open. cbn [dk_open]. induction (dk_open d) as [|x l IH]; [reflexivity|]. cbn [filter find].
  destruct (Z.eqb_spec (fst x) b) as [E|N]; cbn [negb]; [|cbn [find]; destruct (fst x =? a)%Z; [reflexivity|exact IH]].
  destruct (Z.eqb_spec (fst x) a); [congruence|exact IH].
Qed.
Lemma leaves_stream a name id v2 st2 k t : open_as t v2 st2 -> (forall b, stream_at (get (t_host t)) b = Some st2 -> leaves a name id (k (t_host t) b st2) t) -> leaves a name id (with_stream get v2 k) t.
Proof.
  intros O K callf r t' E. destruct (stream_run callf v2 st2 k t O) as (b & B & _ & Q). rewrite Q in E. exact (K b B _ _ _ E).
Qed.

(** The disk gives every open file a new address *)
Definition fresh_streams (t : thread) : Prop := Forall (fun x => (fst x < dk_next (get (t_host t)))%Z) (dk_open (get (t_host t))).
Inductive on_another_file (t : thread) (name : text) : (list value -> fprog H) -> list value -> Prop :=
| oa_open vn vm n : named t vn n -> n <> name -> on_another_file t name fopen [vn; vm]
| oa_read_file vn n args : named t vn n -> n <> name -> on_another_file t name read_file (vn :: args)
| oa_write_file vn n args : named t vn n -> n <> name -> on_another_file t name write_file (vn :: args)
| oa_handle f v st args : open_as t v st -> st_name st <> name -> In f [fread; fwrite; fseek; fsize; fclose] -> on_another_file t name f (v :: args).
Theorem other_calls_elsewhere : forall t v st name f args r t', open_as t v st -> st_name st = name -> fresh_streams t ->
  on_another_file t name f args -> returns M f args t r t' -> elsewhere v name t t'.
Proof.
  intros t v st name f args r t' (id & mk & a & pr & -> & L & G & A) En Fr On R.
  assert (Lv : leaves a name id (f args) t).
  { assert (Na : forall b st2, stream_at (get (t_host t)) b = Some st2 -> st_name st2 <> name -> b <> a) by (intros b st2 B N ->; congruence).
    assert (Cs : forall vn n k, named t vn n -> leaves a name id (k n) t -> leaves a name id (with_cstr vn k) t).
    { intros vn n k (Tn & _) K callf r0 t0 E. rewrite (cstr_run callf vn n k t Tn) in E. exact (K _ _ _ E). }
    destruct On as [vn vm n Nm Ne|vn n args Nm Ne|vn n args Nm Ne|f v st2 args O Ne I].
    - unfold std_fopen. cbn [arg nth_error]. apply (Cs _ _ _ Nm). apply leaves_cstr. intros s. apply leaves_attempt. intros [m|] Em; [|apply leaves_ret].
      intros callf r0 t0 E. cbn [run_fprog] in E. revert callf r0 t0 E. change (leaves a name id (attempt (prepare (get (t_host t)) (until_nul n) m) (fun r => match r with
        | None => FRet VNull
        | Some d => FSetHost (put (add_stream d (mkStream (until_nul n) m 0)) (t_host t)) (FNewNative (dk_next d) prop FRet) end)) t).
      apply leaves_attempt. intros [d|] Ed; [|apply leaves_ret]. rewrite (until_nul_free _ (proj2 Nm)) in Ed. pose proof (apart_prepare _ a name _ _ _ Ed Ne) as (P1 & P2).
      intros callf r0 t0 E. cbn [run_fprog] in E. unfold oassert in E. destruct (0 <=? _)%Z; [|discriminate]. injection E as _ <-. cbn [alloc snd t_host with_host t_heap t_next]. rewrite get_put.
      split; [split; [|exact P2]|split; [|lia]].
      + assert (Nx : dk_next d = dk_next (get (t_host t)) /\ dk_open d = dk_open (get (t_host t))).
        { unfold prepare in Ed. destruct (busy _ _ _); [discriminate|]. destruct m; [destruct (dk_file _ _)|destruct (dk_can _ _)|destruct (dk_can _ _)]; try discriminate; injection Ed as <-; auto. }
        destruct Nx as (Nx & No). unfold stream_at, add_stream. cbn [dk_open find fst]. destruct (Z.eqb_spec (dk_next d) a) as [Q|_]; [|rewrite No; reflexivity].
        exfalso. rewrite Nx in Q. unfold fresh_streams in Fr. rewrite Forall_forall in Fr. unfold stream_at in A. destruct (find _ _) as [x|] eqn:Fx; [|discriminate].
        apply find_some in Fx as (Ix & Ex). apply Z.eqb_eq in Ex. specialize (Fr _ Ix). lia.
      + cbn. destruct (Nat.eqb_spec (t_next t) id); [lia|reflexivity].
    - unfold std_read_file. cbn [arg nth_error]. apply (Cs _ _ _ Nm). intros callf r0 t0 E. cbn [run_fprog] in E. destruct (prepare _ _ _) as [[d|]| | |]; try discriminate; injection E as _ <-.
      + cbn [alloc snd t_host t_heap t_next]. split; [apply apart_refl|]. split; [|lia]. cbn. destruct (Nat.eqb_spec (t_next t) id); [lia|reflexivity].
      + split; [apply apart_refl|auto].
    - unfold std_write_file. cbn [arg nth_error]. apply (Cs _ _ _ Nm). rewrite (until_nul_free _ (proj2 Nm)). intros callf r0 t0 E. cbn [run_fprog] in E. revert callf r0 t0 E. change (leaves a name id (attempt (prepare (get (t_host t)) n SWrite) (fun r => match r with
        | None => FRet (VBool false)
        | Some d => arg (vn :: args) 1 (fun vs => with_cstr vs (fun s => attempt (c_strlen s) (fun k => FSetHost (put (set_file d n (firstn k s)) (t_host t)) (FRet (VBool true))))) end)) t).
      apply leaves_attempt. intros [d|] Ed; [|apply leaves_ret]. apply leaves_arg. intros vs. apply leaves_cstr. intros s. apply leaves_attempt. intros k _. apply leaves_set.
      apply apart_file; [exact Ne|]. eapply apart_prepare; eauto.
    - cbn in I. repeat (destruct I as [<-|I]); try contradiction.
      + unfold std_fread. cbn [arg nth_error]. apply (leaves_stream _ _ _ _ _ _ _ O). intros b B. apply leaves_arg. intros vk. apply leaves_attempt. intros k _. destruct (k <? 0)%Z; [intros callf r0 t0 E; discriminate|].
        intros callf r0 t0 E. cbn [run_fprog] in E. destruct (taken _ _) as [x| | |]; try discriminate.
        assert (P : apart (get (t_host t)) a name (set_stream (get (t_host t)) b (at_pos st2 (st_pos st2 + length (f_read (get (t_host t)) st2 (Z.to_nat k)))))) by (apply apart_stream; eapply Na; eauto).
        exact (leaves_str a name id _ x t L P callf r0 t0 E).
      + unfold std_fwrite. cbn [arg nth_error]. apply (leaves_stream _ _ _ _ _ _ _ O). intros b B. apply leaves_arg. intros vs. apply leaves_cstr. intros s. apply leaves_attempt. intros k _. destruct (_ || _); [intros callf r0 t0 E; discriminate|].
        destruct (f_write _ _ _ _) as (n0 & d0) eqn:Fw. apply leaves_set. pose proof (Na _ _ B Ne) as Nb. unfold f_write in Fw.
        destruct (st_mode st2); [|destruct (firstn _ _)|destruct (firstn _ _)]; injection Fw as _ <-; try apply apart_refl; apply apart_then; auto.
      + unfold std_fseek. cbn [arg nth_error]. apply (leaves_stream _ _ _ _ _ _ _ O). intros b B. apply leaves_arg. intros vk. apply leaves_attempt. intros k _. destruct (k <? 0)%Z; [apply leaves_ret|].
        apply leaves_set. apply apart_stream. eapply Na; eauto.
      + unfold std_fsize. cbn [arg nth_error]. apply (leaves_stream _ _ _ _ _ _ _ O). intros b B. apply leaves_set. apply apart_stream. eapply Na; eauto.
      + unfold std_fclose. cbn [arg nth_error]. apply (leaves_stream _ _ _ _ _ _ _ O). intros b B. apply leaves_set. apply apart_without. eapply Na; eauto. }
  destruct (Lv (fun _ _ _ => UB) r t' (R _)) as ((P1 & P2) & Hg & Nx). split; [exact P2|].
  intros st' (id' & mk' & a' & pr' & [= <-] & _ & G' & A'). exists id, mk', a', pr'. split; [reflexivity|]. split; [lia|]. rewrite Hg. split; [exact G'|].
  assert (a' = a) by congruence. subst a'. rewrite P1. exact A'.
Qed.

(** The addresses stay new, whatever the library is asked to do *)
Definition fresh_disk (d : disk) : Prop := Forall (fun x => (fst x < dk_next d)%Z) (dk_open d).
Definition keeps_fresh (p : fprog H) (t : thread) : Prop := forall callf r t', run_fprog M callf p t = Ok (r, t') -> fresh_disk (get (t_host t)) -> fresh_disk (get (t_host t')).
Lemma fresh_set_stream d a st : fresh_disk d -> fresh_disk (set_stream d a st).
Proof.
  unfold fresh_disk, set_stream, set_open. cbn [dk_open dk_next]. rewrite !Forall_forall. intros F x I. apply in_map_iff in I as (y & <- & I). specialize (F _ I).
  destruct (Z.eqb_spec (fst y) a); cbn [fst]; lia.
Qed.
Lemma fresh_without d a : fresh_disk d -> fresh_disk (without d a).
Proof. unfold fresh_disk, without, set_open. cbn [dk_open dk_next]. rewrite !Forall_forall. intros F x I. apply filter_In in I as (I & _). auto. Qed.
Lemma fresh_prepare d n m d' : prepare d n m = Ok (Some d') -> fresh_disk d -> fresh_disk d'.
Proof.
  unfold prepare. destruct (busy d n m); [discriminate|]. destruct m; [destruct (dk_file d n)|destruct (dk_can d n)|destruct (dk_can d n)]; try discriminate; intros [= <-] F; exact F.
Qed.
Lemma kf_stream v k t : (forall a st, keeps_fresh (k (t_host t) a st) t) -> keeps_fresh (with_stream get v k) t.
Proof.
  intros K callf r t' E. unfold with_stream, with_addr in E. destruct v; cbn [run_fprog ref_of] in E;
    try (destruct (stream_at _ _); [exact (K _ _ _ _ _ E)|discriminate]).
  destruct (hget _ _) as [o|]; [|discriminate]. destruct (o_body o); try discriminate. cbn [run_fprog] in E. destruct (stream_at _ _); [exact (K _ _ _ _ _ E)|discriminate].
Qed.
Lemma kf_cstr v k t : (forall s, keeps_fresh (k s) t) -> keeps_fresh (with_cstr v k) t.
Proof.
  intros K callf r t' E. unfold with_cstr, with_chars in E. destruct v; try discriminate E; [|exact (K _ _ _ _ E)].
  cbn [run_fprog ref_of] in E. destruct (hget (t_heap t) _) as [o|]; [|discriminate]. destruct (o_body o); try discriminate. exact (K _ _ _ _ E).
Qed.
Lemma kf_arg args i k t : (forall v, keeps_fresh (k v) t) -> keeps_fresh (arg args i k) t.
Proof. intros K callf r t' E. unfold arg in E. destruct (nth_error args i); [exact (K _ _ _ _ E)|discriminate]. Qed.
Lemma kf_attempt {A} (o : outcome A) k t : (forall x, o = Ok x -> keeps_fresh (k x) t) -> keeps_fresh (attempt o k) t.
Proof. intros K callf r t' E. destruct o; try discriminate E. exact (K _ eq_refl _ _ _ E). Qed.
Lemma kf_ret v t : keeps_fresh (FRet v) t.
Proof. intros callf r t' E F. injection E as _ <-. exact F. Qed.
Lemma kf_host k t : keeps_fresh (k (t_host t)) t -> keeps_fresh (FHost k) t.
Proof. intros K callf r t' E. exact (K callf r t' E). Qed.
Lemma kf_set d v t : (fresh_disk (get (t_host t)) -> fresh_disk d) -> keeps_fresh (FSetHost (put d (t_host t)) (FRet v)) t.
Proof. intros K callf r t' E F. injection E as _ <-. cbn [t_host with_host]. rewrite get_put. auto. Qed.
Lemma kf_ub t : keeps_fresh FUB t. Proof. intros callf r t' E. discriminate. Qed.
Theorem addresses_stay_new : forall t f args r t', In f [fopen; fread; fwrite; fseek; fsize; fclose; read_file; write_file] ->
  returns M f args t r t' -> fresh_streams t -> fresh_streams t'.
Proof.
  intros t f args r t' I R. assert (K : keeps_fresh (f args) t).
  { cbn in I. repeat (destruct I as [<-|I]); try contradiction.
    - unfold std_fopen. apply kf_arg. intros vn. apply kf_cstr. intros n. apply kf_arg. intros vm. apply kf_cstr. intros s. apply kf_attempt. intros [m|] _; [|apply kf_ret]. apply kf_host.
      apply kf_attempt. intros [d|] Ed; [|apply kf_ret]. intros callf r0 t0 E F. cbn [run_fprog] in E. unfold oassert in E. destruct (0 <=? _)%Z; [|discriminate]. injection E as _ <-.
      cbn [alloc snd t_host with_host]. rewrite get_put. pose proof (fresh_prepare _ _ _ _ Ed F) as F2. unfold fresh_disk, add_stream in *. cbn [dk_open dk_next]. constructor; [cbn; lia|].
      eapply Forall_impl; [|exact F2]. intros x Lt. cbn in Lt. lia.
    - unfold std_fread. apply kf_arg. intros v. apply kf_stream. intros a st. apply kf_arg. intros vk. apply kf_attempt. intros k _. destruct (k <? 0)%Z; [apply kf_ub|].
      intros callf r0 t0 E F. cbn [run_fprog] in E. destruct (taken _ _); try discriminate. injection E as _ <-. cbn [alloc snd t_host with_host]. rewrite get_put. apply fresh_set_stream. exact F.
    - unfold std_fwrite. apply kf_arg. intros v. apply kf_stream. intros a st. apply kf_arg. intros vs. apply kf_cstr. intros s. apply kf_attempt. intros k _. destruct (_ || _); [apply kf_ub|].
      destruct (f_write _ _ _ _) as (n0 & d0) eqn:Fw. apply kf_set. intros F. unfold f_write in Fw. destruct (st_mode st); [|destruct (firstn _ _)|destruct (firstn _ _)]; injection Fw as _ <-; try exact F; apply fresh_set_stream; exact F.
    - unfold std_fseek. apply kf_arg. intros v. apply kf_stream. intros a st. apply kf_arg. intros vk. apply kf_attempt. intros k _. destruct (k <? 0)%Z; [apply kf_ret|]. apply kf_set. apply fresh_set_stream.
    - unfold std_fsize. apply kf_arg. intros v. apply kf_stream. intros a st. apply kf_set. apply fresh_set_stream.
    - unfold std_fclose. apply kf_arg. intros v. apply kf_stream. intros a st. apply kf_set. apply fresh_without.
    - unfold std_read_file. apply kf_arg. intros v. apply kf_cstr. intros s. apply kf_host. apply kf_attempt. intros [d|] Ed; [|apply kf_ret].
      intros callf r0 t0 E F. injection E as _ <-. exact F.
    - unfold std_write_file. apply kf_arg. intros v. apply kf_cstr. intros s. apply kf_host. apply kf_attempt. intros [d|] Ed; [|apply kf_ret].
      apply kf_arg. intros vs. apply kf_cstr. intros x. apply kf_attempt. intros n _. apply kf_set. intros F. exact (fresh_prepare _ _ _ _ Ed F). }
  exact (K (fun _ _ _ => UB) r t' (R _)).
Qed.
End Files.

(** ** What is not promised *)
Definition own (d : disk) : disk := d.
Definition own_put (d _ : disk) : disk := d.
Definition desk_machine : machine disk := mkMachine disk [] [] [] [] 0 (mkNatives disk (fun _ _ _ => []) (fun _ w _ => w)) None 0.
Definition empty_disk : disk := mkDisk (fun _ => None) (fun n => negb (text_eqb n (text_of "/"))) [] 1.
Definition desk_on (d : disk) : thread disk := mkThread 0%Z 0 [] [] VNull None [] 0 0 0 d.
Definition desk : thread disk := desk_on empty_disk.
Definition after (c : outcome (value * thread disk)) : thread disk := match c with Ok (_, t) => t | _ => desk end.
Definition result (c : outcome (value * thread disk)) : value := match c with Ok (v, _) => v | _ => VNull end.
Notation run := (run_fprog desk_machine (fun _ _ _ => UB)).
Definition str (s : string) : value := VCStr (text_of s).

(** Asking for the size loses the place *)
Theorem fsize_keeps_position_refuted : ~ (forall (t t' : thread disk) v name c p r, positioned own t v name c p ->
  returns desk_machine (std_fsize own own_put) [v] t r t' -> positioned own t' v name c p).
Proof.
  intros A. set (d := mkDisk (fun _ => Some (text_of "abc")) (fun _ => true) [(1%Z, mkStream (text_of "x") SRead 2)] 2).
  set (t := mkThread 0%Z 0 [] [] VNull None [mkObj 0 false (BNative 1 5)] 1 1 0 d).
  assert (P : positioned own t (VNative 0) (text_of "x") (text_of "abc") 2).
  { split; [exists 0, false, 1%Z, 5; repeat split; cbn; lia|reflexivity]. }
  destruct (fsize_counts desk_machine own own_put (fun _ _ => eq_refl) _ _ _ _ _ _ (proj1 P) (proj2 P)) as (t' & R & _ & O & _).
  specialize (A _ _ _ _ _ _ _ P R) as (O' & _). destruct O as (i & m & a & q & [= <-] & _ & G & S), O' as (i' & m' & a' & q' & [= <-] & _ & G' & S').
  rewrite G in G'. injection G' as _ <- _. rewrite S in S'. discriminate S'.
Qed.
(** A string with a NUL in it is cut there *)
Theorem write_file_keeps_all_refuted : ~ (forall (t t' : thread disk) vn vs name s, named t vn name -> text_of_value (t_heap t) vs s -> openable own t name SWrite ->
  returns desk_machine (std_write_file own own_put) [vn; vs] t (VBool true) t' -> file own t' name = Some s).
Proof.
  intros A. set (x := (text_of "a" ++ ["000"%char] ++ text_of "b")%list).
  set (t := mkThread 0%Z 0 [] [] VNull None [mkObj 0 false (BStr x)] 1 1 0 empty_disk).
  assert (N : named t (str "f") (text_of "f")).
  { split; [apply tv_const|]. intros [E|[]]. discriminate E. }
  assert (S : text_of_value (t_heap t) (VStr 0) x) by (apply tv_heap with (m := false); reflexivity).
  assert (F : openable own t (text_of "f") SWrite) by (intros ? ? []).
  destruct (write_file_writes desk_machine own own_put (fun _ _ => eq_refl) t _ _ _ _ N S F) as (W & _).
  destruct (W eq_refl) as (t' & R & _ & E & _). pose proof (A _ _ _ _ _ _ N S F R) as E'. rewrite E in E'. discriminate E'.
Qed.

(** ** A case: a line written, another appended while a second file is written, and
    both read back in two parts *)
Definition t_saved := after (run (std_write_file own own_put [str "log"; str "one "]) desk).
Definition t_app := after (run (std_fopen own own_put 5 [str "log"; str "a"]) t_saved).
Definition t_other := after (run (std_write_file own own_put [str "tmp"; str "x"]) t_app).
Definition h_log := result (run (std_fopen own own_put 5 [str "log"; str "a"]) t_saved).
Definition t_two := after (run (std_fwrite own own_put [h_log; str "two"]) t_other).
Definition t_shut := after (run (std_fclose own own_put [h_log]) t_two).
Definition t_read := after (run (std_fopen own own_put 5 [str "log"; str "rb"]) t_shut).
Definition h_read := result (run (std_fopen own own_put 5 [str "log"; str "rb"]) t_shut).
Definition t_part := after (run (std_fread own own_put [h_read; VInt 5]) t_read).
Lemma str_named t s : nul_free (text_of s) -> named (H := disk) t (str s) (text_of s).
Proof. intros F. split; [apply tv_const|exact F]. Qed.
Lemma plain s : forallb (fun c => negb (Ascii.eqb c "000")) s = true -> nul_free s.
Proof. intros F I. rewrite forallb_forall in F. specialize (F _ I). discriminate F. Qed.
Example files_case :
  file own t_saved (text_of "log") = Some (text_of "one ") /\
  writes desk_machine own own_put h_log (text_of "log") t_app [text_of "two"] t_two /\
  file own t_shut (text_of "log") = Some (text_of "one two") /\ file own t_shut (text_of "tmp") = Some (text_of "x") /\
  reads desk_machine own own_put h_read (text_of "log") t_read [text_of "one t"] t_part /\
  (exists r t', returns desk_machine (std_fread own own_put) [h_read; VInt 2] t_part r t' /\ text_of_value (t_heap t') r (text_of "wo")) /\
  undefined desk_machine (std_fread own own_put) [h_read; VInt 3] t_part /\
  returns desk_machine (std_write_file own own_put) [str "/"; str "x"] desk (VBool false) desk /\
  returns desk_machine (std_fopen own own_put 5) [str "none"; str "r"] desk VNull desk.
Proof.
  split; [reflexivity|]. split.
  { eapply w_else.
    - assert (O : open_as own t_app h_log (mkStream (text_of "log") SAppend 0)).
      { exists 0, false, 1%Z, 5. repeat split; cbn; lia. }
      apply (other_calls_elsewhere desk_machine own own_put 5 (fun _ _ => eq_refl) t_app h_log _ (text_of "log") (std_write_file own own_put) [str "tmp"; str "x"] (VBool true) t_other O eq_refl).
      + repeat constructor.
      + apply oa_write_file with (n := text_of "tmp"); [apply str_named; apply plain; reflexivity|discriminate].
      + intros callf. reflexivity.
    - eapply w_call with (vs := str "two") (r := VInt 3) (t1 := t_two); [apply tv_const|intros callf; reflexivity|constructor]. }
  split; [reflexivity|]. split; [reflexivity|].
  assert (N : named t_shut (str "log") (text_of "log")) by (apply str_named; apply plain; reflexivity).
  destruct (read_back desk_machine own own_put 5 (fun _ _ => eq_refl) t_shut (str "log") (str "rb") (text_of "log") (text_of "rb") (text_of "one two") N (tv_const _ _) (or_intror eq_refl)) as (v & t1 & R & K);
    [intros ? ? []|vm_compute; discriminate|reflexivity|].
  assert (R1 : returns desk_machine (std_fopen own own_put 5) [str "log"; str "rb"] t_shut h_read t_read) by (intros callf; reflexivity).
  destruct (returns_once desk_machine _ _ _ _ _ _ _ R R1) as (-> & ->).
  assert (Rd : reads desk_machine own own_put h_read (text_of "log") t_read [text_of "one t"] t_part).
  { eapply r_call with (k := 5%Z) (r := VStr 2) (t1 := t_part); [lia|intros callf; reflexivity|apply tv_heap with (m := false); reflexivity|constructor]. }
  split; [exact Rd|]. destruct (K _ _ Rd) as (rest & E & K2). cbn [concat app text_of] in E. assert (Er : rest = text_of "wo") by (injection E as <-; reflexivity). subst rest.
  split; [destruct (K2 2%Z ltac:(lia)) as (Y & _); destruct (Y ltac:(cbn; lia)) as (r & t3 & R3 & T3); exists r, t3; auto|].
  split; [apply (proj2 (K2 3%Z ltac:(lia))); cbn; lia|].
  split; intros callf; reflexivity.
Qed.
(** In place: "hello" becomes "hXYlo" *)
Definition t_w := after (run (std_fopen own own_put 5 [str "f"; str "w"]) desk).
Definition h_w := result (run (std_fopen own own_put 5 [str "f"; str "w"]) desk).
Definition t_hello := after (run (std_fwrite own own_put [h_w; str "hello"]) t_w).
Definition t_sought := after (run (std_fseek own own_put [h_w; VInt 1]) t_hello).
Example in_place_case : open_as own t_sought h_w (mkStream (text_of "f") SWrite 1) /\ file own t_sought (text_of "f") = Some (text_of "hello") /\
  (exists t', returns desk_machine (std_fwrite own own_put) [h_w; str "XYZ"; VInt 2] t_sought (VInt 2) t' /\ file own t' (text_of "f") = Some (text_of "hXYlo")) /\
  undefined desk_machine (std_fwrite own own_put) [h_w; str "XYZ"; VInt 5] t_sought /\
  fresh_streams own t_sought /\ ~ openable own t_sought (text_of "f") SRead /\ openable own t_sought (text_of "g") SWrite /\
  undefined desk_machine (std_read_file own) [str "f"] t_sought /\ openable own t_read (text_of "log") SRead /\ dk_open (own (t_host t_read)) <> [].
Proof.
  split; [exists 0, false, 1%Z, 5; split; [reflexivity|]; split; [vm_compute; lia|]; split; reflexivity|]. split; [reflexivity|].
  split; [exists (after (run (std_fwrite own own_put [h_w; str "XYZ"; VInt 2]) t_sought)); split; [intros callf; reflexivity|reflexivity]|].
  split; [intros callf; reflexivity|]. split; [repeat constructor|].
  split; [intros A; destruct (A 1%Z (mkStream (text_of "f") SWrite 1) (or_introl eq_refl) eq_refl) as (_ & E); discriminate E|].
  split; [intros a st [[= <- <-]|[]] E; discriminate E|]. split; [intros callf; reflexivity|].
  split; [intros a st [[= <- <-]|[]] _; split; reflexivity|]. discriminate.
Qed.
Print Assumptions write_file_writes.
Print Assumptions read_file_reads.
Print Assumptions fopen_opens.
Print Assumptions written_file.
Print Assumptions read_back.
Print Assumptions fsize_counts.
Print Assumptions closed_file.
Print Assumptions other_calls_elsewhere.
Print Assumptions fseek_moves.
Print Assumptions fsize_keeps_position_refuted.
Print Assumptions write_file_keeps_all_refuted.
Print Assumptions fwrite_in_place.
Print Assumptions open_twice.
Print Assumptions addresses_stay_new.
