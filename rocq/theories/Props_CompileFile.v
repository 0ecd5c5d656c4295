(** C56: compiling a file is compiling its text *)
From Verif Require Import Base Pos Float64 Token Lexer Values ValuesSpec Heap Code VM Strings FileLine Syntax Symbols Parser Resolve Compile Layout CompileProofs TableInv ParserTotal Host Grammar GrammarStmt.
From Verif Require Import LexerSpec Props_Parser Props_Compile Props_Names Typing Accept AcceptCode AcceptStmt AcceptGrammar AcceptRoom AcceptWhole Answer Props_Accept Props_Answer StdSpec Std StdProofs I64 ErrFmt ErrFmtSpec ErrFmtProofs Files Props_Files CompileFile.
Local Open Scope nat_scope.

(** Nothing has the file open for writing *)
Definition settled (d : disk) (name : text) : Prop := forall a st, In (a, st) (dk_open d) -> st_name st = name -> st_mode st = SRead.
Lemma settled_free d name : settled d name -> busy d name SRead = false.
Proof.
  unfold settled, busy. induction (dk_open d) as [|[a st] l IH]; intros A; [reflexivity|]. cbn [existsb snd].
  rewrite IH by (intros b s I; apply (A b s); right; exact I). destruct (text_eqb (st_name st) name) eqn:E; [|reflexivity].
  apply text_eqb_eq in E. rewrite (A a st (or_introl eq_refl) E). reflexivity.
Qed.

(** A file that does not exist: an error that names it, cut to the buffer *)
Theorem missing_file : forall fuel mods d buf name s, settled d name -> 0 < length buf -> dk_file d name = None ->
  compile_file fuel mods d buf name s = NotOpened (printed buf (text_of "Error: Unable to open file '" ++ name ++ text_of "' for reading" ++ [newline])).
Proof.
  intros fuel mods d buf name s St Lb F. unfold compile_file, prepare. rewrite (settled_free _ _ St), F. unfold open_error.
  set (x := text_of "Error: Unable to open file '" ++ name ++ text_of "' for reading" ++ [newline]).
  destruct (append_Pr buf (mkOut buf 0) [] x) as (o & E & _ & P); [split; auto|]. specialize (P Lb). cbn [app] in P.
  unfold append in E. cbn [ob oused] in E. rewrite Nat.sub_0_r in E. change ["010"%char] with [newline]. fold x.
  destruct (snprintf buf 0 (length buf) x) as [[b n]| | |]; try discriminate E. cbn [obind] in E. injection E as <-. cbn [ob] in P. rewrite P. reflexivity.
Qed.
Print Assumptions missing_file.

(** A file compiles exactly when its text, up to the first NUL, is acceptable *)
Theorem file_accepted_exactly : forall s0 fuel mods d buf name c ts, reachable s0 -> settled d name -> dk_file d name = Some c ->
  simple_source (until_nul c) -> enough_room s0 (Some name) (until_nul c) -> parse_fuel (fst (lex_all (until_nul c))) <= fuel ->
  (exists s, compile_file fuel mods d buf name s0 = Compiled (COk ts s)) <-> acceptable s0 (until_nul c) ts.
Proof.
  intros s0 fuel mods d buf name c ts R St F Si Rm L. rewrite <- (accepted_exactly s0 fuel mods (Some name) (until_nul c) ts R Si Rm L).
  unfold compile_file, prepare. rewrite (settled_free _ _ St), F. unfold contents. rewrite F. split; intros (s & E); exists s; [injection E; auto|rewrite E; reflexivity].
Qed.
Print Assumptions file_accepted_exactly.

(** Compiling a file always comes to an answer (as C47 says for texts) *)
Theorem file_answers : forall s0 fuel mods d buf name c, reachable s0 -> settled d name -> dk_file d name = Some c ->
  simple_source (until_nul c) -> enough_room s0 (Some name) (until_nul c) -> parse_fuel (fst (lex_all (until_nul c))) <= fuel ->
  nothing_pending s0 -> no_self_source s0 (until_nul c) ->
  exists r, compile_file fuel mods d buf name s0 = Compiled r /\
    match r with
    | COk _ _ | CFail _ => True
    | CHang => exists g q, until_nul c = g ++ ch_dquote :: q /\ ~ closed q
    | CAbort | CUB | CFuel => False
    end.
Proof.
  intros s0 fuel mods d buf name c R St F Si Rm L Np Ns. exists (compile_string fuel mods (Some name) (until_nul c) s0). split.
  - unfold compile_file, prepare. rewrite (settled_free _ _ St), F. unfold contents. rewrite F. reflexivity.
  - exact (compiler_answers s0 fuel mods (Some name) (until_nul c) R Si Rm L Np Ns).
Qed.
Print Assumptions file_answers.

(** A script that saves a text with write_file and has it compiled: the compiler
    gets the text it saved *)
Theorem saved_source_compiles : forall {H} (M : machine H) (get : H -> disk) (put : disk -> H -> H) t vn vs name src, (forall d h, get (put d h) = d) ->
  named t vn name -> text_of_value (t_heap t) vs src -> nul_free src -> openable get t name SWrite -> may_write get t name ->
  exists t', returns M (std_write_file get put) [vn; vs] t (VBool true) t' /\
  forall s0 fuel mods buf ts, reachable s0 -> simple_source src -> enough_room s0 (Some name) src -> parse_fuel (fst (lex_all src)) <= fuel ->
    (exists s, compile_file fuel mods (get (t_host t')) buf name s0 = Compiled (COk ts s)) <-> acceptable s0 src ts.
Proof.
  intros H M get put t vn vs name src GP Nm Ts Nf Op W. pose proof (until_nul_free _ Nf) as Un.
  destruct (write_file_writes M get put GP t vn vs name src Nm Ts Op) as (X & _). destruct (X W) as (t' & R & Dk & F & _). exists t'. split; [exact R|].
  intros s0 fuel mods buf ts Rs Si Rm L. unfold file in F.
  assert (St : settled (get (t_host t')) name).
  { specialize (R (fun _ _ _ => UB)). unfold std_write_file in R. cbn [arg nth_error] in R. rewrite (cstr_run _ _ _ _ _ _ (proj1 Nm)), (until_nul_free _ (proj2 Nm)) in R. cbn [run_fprog] in R.
    unfold prepare in R. rewrite (proj2 (busy_spec get t name SWrite) Op), W in R. cbn [attempt] in R. rewrite (cstr_run _ _ _ _ _ _ Ts), c_strlen_until in R. cbn [attempt run_fprog] in R. injection R as <-.
    intros a st I N. cbn [t_host with_host] in I. rewrite GP in I. cbn [set_file dk_open] in I. destruct (Op a st I N) as (E & _). discriminate E. }
  rewrite Un in F. pose proof (file_accepted_exactly s0 fuel mods _ buf name src ts Rs St F) as Y. rewrite Un in Y. exact (Y Si Rm L).
Qed.
Print Assumptions saved_source_compiles.


(** ** A case: a program saved by a script and compiled *)
Definition quiet : text -> macro := fun _ _ _ _ => CAbort.
Definition saved_disk : disk := set_file empty_disk (text_of "prog") demo_src.
Lemma demo_room_file : enough_room demo_s1 (Some (text_of "prog")) demo_src.
Proof. unfold enough_room in *. vm_compute. repeat constructor. Qed.
Example file_case :
  (exists s, compile_file acc_fuel quiet saved_disk [] (text_of "prog") demo_s1 = Compiled (COk demo_ts s)) /\
  compile_file acc_fuel quiet saved_disk (repeat "#"%char 40) (text_of "none") demo_s1 =
    NotOpened (text_of "Error: Unable to open file 'none' for r" ++ ["000"%char]) /\
  file own (after (run (std_write_file own own_put [str "prog"; VCStr demo_src]) desk)) (text_of "prog") = Some demo_src.
Proof.
  assert (Nf : nul_free demo_src) by (apply plain; reflexivity). pose proof (until_nul_free _ Nf) as Un. split; [|split].
  - assert (Fp : dk_file saved_disk (text_of "prog") = Some demo_src) by reflexivity.
    assert (St : settled saved_disk (text_of "prog")) by (intros a st []).
    apply (file_accepted_exactly demo_s1 acc_fuel quiet saved_disk [] (text_of "prog") demo_src demo_ts demo_reachable St Fp); rewrite Un; [exact demo_simple|exact demo_room_file|exact acc_enough|exact accepted_case].
  - assert (St : settled saved_disk (text_of "none")) by (intros a st []).
    rewrite (missing_file acc_fuel quiet saved_disk (repeat "#"%char 40) (text_of "none") demo_s1 St); [reflexivity|cbn; lia|reflexivity].
  - reflexivity.
Qed.
