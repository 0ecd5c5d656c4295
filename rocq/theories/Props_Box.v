(** C44, C45: the standard library's arrays and dicts in a running program *)
From Coq Require Import Sorted Permutation.
From Verif Require Import Base Float64 Values ValuesSpec Heap GCSpec Code VM VMBasics VMSpec VMInv VMFrame VMProofs GCTransSpec Array ArraySpec Dict DictSpec
  Std StdSpec StdBox StdBoxSpec StdBoxGC StdBoxProofs StdBoxMain StdBoxStrict Props_VM Props_GC.
Local Open Scope nat_scope.

(** ** C44: whatever the program does between calls, arrays are lists and dicts
    are maps, and each container is its own. *)
Theorem containers_are_lists_and_maps : forall (M : machine store) place h0,
  exists R, faithful_to M place h0 R.
Proof. intros M place h0. eexists. apply containers_L. Qed.
Print Assumptions containers_are_lists_and_maps.

(** A program's calls one after the other, with nothing in between: each reply,
    until an abort. *)
Fixpoint do_calls (M : machine store) (place : nat -> Z) (t : thread store) (cs : list box_call) : outcome (list value * thread store) :=
  match cs with
  | [] => Ok ([], t)
  | c :: cs' =>
      (' (v, t1) <- run_fprog M (fun _ _ _ => UB) (the_function place c (the_arguments c)) t ;;
       ' (vs, t2) <- do_calls M place t1 cs' ;;
       Ok (v :: vs, t2))%outcome
  end.
Definition box_machine (code : list instr) (strict : bool) (others : list (list value -> fprog store)) : machine store :=
  mkMachine store (fold_left gen_instr code []) [] [] (lib_functions strict Z.of_nat ++ others) 2 lib_natives (Some stack_size) call_depth.
Definition box_thread : thread store := with_pc (start_thread (box_machine [] false []) (init_thread [])) 0.
Definition VC (s : string) : value := VCStr (text_of s).

Definition box_calls : list box_call :=
  [ QArray false [VInt 3; VInt 1];                       (* native 0 *)
    QList (VNative 0) (APush (VInt 2));
    QList (VNative 0) (AInsert 1 (VInt 9));
    QSort (VNative 0);
    QList (VNative 0) (AGet 2);
    QDict [VC "a"; VInt 1; VC "b"; VNative 0];           (* native 1 *)
    QPut (VNative 1) (VC "a") (VInt 7);
    QPut (VNative 1) (VInt 5) (VInt 6);
    QRemove (VNative 1) (VInt 5);
    QGet (VNative 1) (VC "a"); QGet (VNative 1) (VC "b");
    QExists (VNative 1) (VInt 5);
    QKeys (VNative 1);                                   (* native 2 *)
    QList (VNative 2) ALen;
    QList (VNative 0) APop; QList (VNative 0) AShift; QList (VNative 0) ALen;
    QResize (VNative 0) 1; QList (VNative 0) ALen ].
Example containers_case :
  match do_calls (box_machine [] false []) Z.of_nat box_thread box_calls with
  | Ok (vs, t) => vs = [VNative 0; VNull; VNull; VNull; VInt 3; VNative 1; VNull; VNull; VNull; VInt 7; VNative 0; VBool false;
                        VNative 2; VInt 2; VInt 9; VInt 1; VInt 2; VNull; VInt 1] /\ length (t_host t) = 3
  | _ => False
  end.
Proof. vm_compute. split; reflexivity. Qed.

(** The hypotheses of [ft_call] for a call in the middle of that history. *)
Example containers_call_case :
  let t := snd (alloc (snd (alloc box_thread (BNative 1 1))) (BNative 2 3)) in
  let B := [BoxList true [VInt 1; VInt 3]; BoxMap [(VC "a", VInt 7); (VC "b", VNative 0)]] in
  let c := QPut (VNative 1) (VC "b") (VInt 4) in
  (0 <= t_pc t)%Z /\ int_ok c /\ (forall k, call_keys (t_heap t) B c k -> same_content [] (t_heap t) k) /\
  answers (t_heap t) B c (Some ([BoxList true [VInt 1; VInt 3]; BoxMap [(VC "a", VInt 7); (VC "b", VInt 4)]], Gives VNull)).
Proof.
  intros t B c. split; [cbn; lia|]. split; [exact I|].
  assert (Ow : owns (t_heap t) (VNative 1) 1 3) by (exists 1, false; split; reflexivity).
  split.
  - intros k [X|(i & m & (id & mk & [= <-] & E) & N & X)].
    + cbn in X. subst. exact I.
    + cbn in E. injection E as _ E. assert (i = 1) as -> by lia. cbn in N. injection N as <-. destruct X as [<-|[<-|[]]]; exact I.
  - pose proof (an_put (t_heap t) B (VNative 1) (VC "b") (VInt 4) 1 _ Ow eq_refl) as X. exact X.
Qed.

(** ** C45: what is in a container stays alive; collection is invisible *)

(** The library with foreign functions of the host's own. *)
Definition with_library (M : machine store) (strict : bool) (place : nat -> Z) (others : list (list value -> fprog store)) : machine store :=
  with_foreign M (lib_functions strict place ++ others).

Lemma library_respects M place others : m_natives M = lib_natives ->
  (forall fn w args, In fn others -> respects (with_library M true place others) w args args true (fn args)) ->
  foreign_respects (with_library M true place others).
Proof.
  intros NM O fn w args I0. cbn [with_library m_foreign with_foreign] in I0. apply in_app_or in I0 as [I0|I0]; [|auto].
  eapply resp_lib; eauto.
Qed.

(** If a program, run without collection, ends without reading an object out of
    a primitive array and without growing a non-empty array by resize
    ([strict = true]), and builds no cycle, then with the library's code
    ([strict = false]) and any collection policy it ends the same way, and
    everything it can still reach, through containers too, is alive. *)
Theorem containers_keep_objects : forall (M : machine store) place others poll w u',
  m_natives M = lib_natives ->
  (forall fn w args, In fn others -> respects (with_library M true place others) w args args true (fn args)) ->
  let Strict := with_library M true place others in
  let Code := with_library M false place others in
  let t := start_thread M (init_thread w) in
  (forall s, visits Strict no_poll None t s -> ~ has_cycle Strict s) ->
  runs Strict no_poll t (Ok u') ->
  runs Code no_poll t (Ok u') /\
  exists t', runs Code poll t (Ok t') /\ same_but_garbage t' u' /\ no_dangling Code t'.
Proof.
  intros M place others poll w u' NM O Strict Code t Cy E.
  assert (LE : Forall2 (fun f g => forall callf args t, ole (run_fprog Strict callf (f args) t) (run_fprog Strict callf (g args) t))
     (m_foreign Strict) (lib_functions false place ++ others)).
  { unfold Strict, with_library. cbn [with_foreign m_foreign]. apply Forall2_app.
    - apply strict_le.
    - clear. induction others; constructor; auto. intros. apply ole_refl. }
  assert (Up : forall p x y, runs Strict p x (Ok y) -> runs Code p x (Ok y)).
  { intros p x y X. apply (runs_le Strict _ LE) in X; [exact X|discriminate]. }
  split; [apply Up; exact E|].
  assert (Sil : silent_finalizers Strict) by (intros p v a; change (m_natives Strict) with (m_natives M); rewrite NM; reflexivity).
  destruct (collection_transparent Strict poll t t Sil (library_respects M place others NM O)) as (_ & T & _).
  - apply (started_no_dangling Strict w).
  - unfold same_but_garbage. repeat split; auto.
  - exact Cy.
  - destruct (T u' E) as (t' & R & S' & D). exists t'. split; [apply Up; exact R|]. split; [exact S'|]. exact D.
Qed.
Print Assumptions containers_keep_objects.

(** *** A case: an object kept only by an array and a dict *)
Fixpoint some_strings (n : nat) : fprog store :=
  match n with
  | O => FNewStr (text_of "kept") FRet
  | S n' => FNewStr (text_of "garbage") (fun _ => some_strings n')
  end.
Definition host_functions : list (list value -> fprog store) :=
  [(fun _ => some_strings 0); std_strlen; (fun _ => some_strings 8)].

(** s := "kept"; d := dict(1, array(s)); garbage; strlen(dict_get(d, 1)[0]) *)
Definition keep_code : list instr :=
  [ICallF 0 22; IGetRetval; ICallF 1 0; IGetRetval; ISet 0;
   IPush1; IGet 0; ICallF 2 14; IGetRetval; ISet 1; IPushNull; ISet 0;
   ICallF 0 24; ICallF 0 24;
   IGet 1; IPush1; ICallF 2 17; IGetRetval; IPush0; ICallF 2 5; IGetRetval; ICallF 1 23; IHalt].
Definition keep_start : thread store := start_thread (box_machine keep_code true host_functions) (init_thread []).

(** Programs that never call back pass through no call. *)
Inductive quiet : fprog store -> Prop :=
| qu_ret v : quiet (FRet v) | qu_abort : quiet FAbort | qu_ub : quiet FUB
| qu_host k : (forall w, quiet (k w)) -> quiet (FHost k)
| qu_set w k : quiet k -> quiet (FSetHost w k)
| qu_obj v k : (forall b, quiet (k b)) -> quiet (FObj v k)
| qu_str s k : (forall v, quiet (k v)) -> quiet (FNewStr s k)
| qu_nat a p k : (forall v, quiet (k v)) -> quiet (FNewNative a p k).

Lemma quiet_passes M poll p t f a t' : quiet p -> passes M poll p t f a t' -> False.
Proof. intros Q P. revert Q. induction P; intros Q; inversion Q; subst; auto. Qed.

Lemma qu_arg args i k : (forall v, quiet (k v)) -> quiet (arg args i k).
Proof. intros A. unfold arg. destruct (nth_error args i); [apply A|constructor]. Qed.
Lemma qu_attempt {A} (o : outcome A) k : (forall v, quiet (k v)) -> quiet (attempt o k).
Proof. intros X. destruct o; cbn [attempt]; try constructor. apply X. Qed.
Lemma qu_with_array v k : (forall p a x w, quiet (k p a x w)) -> quiet (with_array v k).
Proof.
  intros A. destruct v; try constructor. intros [s|a p|fs]; try constructor. destruct (_ || _); constructor. intros w. destruct (cell_at w a) as [[x|d]|]; try constructor. apply A.
Qed.
Lemma qu_with_dict v k : (forall a d w, quiet (k a d w)) -> quiet (with_dict v k).
Proof.
  intros A. destruct v; try constructor. intros [s|a p|fs]; try constructor. destruct (_ =? 3); constructor. intros w. destruct (cell_at w a) as [[x|d]|]; try constructor. apply A.
Qed.
Lemma qu_objects vs k : (forall h, quiet (k h)) -> forall h, quiet (with_objects vs h k).
Proof. intros A. induction vs as [|v vs IH]; intros h; cbn [with_objects]; auto. destruct v; auto; constructor; auto. Qed.
Lemma qu_new_box c p : quiet (new_box c p).
Proof. constructor. intros w. constructor. constructor. intros v. constructor. Qed.
Lemma qu_array_call strict args o : quiet (array_call strict args o).
Proof.
  apply qu_arg. intros v. apply qu_with_array. intros p a x w. destruct (strict && grows_used x o); [constructor|]. apply qu_attempt. intros (x' & r). constructor.
  destruct r; cbn [answer]; try constructor. destruct (strict && (p =? 2) && _); constructor.
Qed.
Lemma qu_dict_call place args o k : (forall r, quiet (k r)) -> quiet (dict_call place args o k).
Proof.
  intros A. apply qu_arg. intros v. apply qu_with_dict. intros a d w. apply qu_objects. intros h. apply qu_attempt. intros (d' & r). constructor. apply A.
Qed.
Lemma qu_dict_list args pick : quiet (dict_list args pick).
Proof. apply qu_arg. intros v. apply qu_with_dict. intros a d w. apply qu_attempt. intros x. apply qu_new_box. Qed.

Lemma quiet_lib strict place fn args : In fn (lib_functions strict place) -> quiet (fn args).
Proof.
  unfold lib_functions. intros I0. repeat (destruct I0 as [<-|I0]); try contradiction I0.
  all: try (apply qu_array_call; fail).
  all: try (apply qu_attempt; intros x; apply qu_new_box).
  all: try (apply qu_arg; intros v; apply qu_array_call).
  all: try (apply qu_arg; intros v; apply qu_arg; intros v'; apply qu_array_call).
  all: try (apply qu_arg; intros v; apply qu_attempt; intros n; apply qu_array_call).
  all: try (apply qu_arg; intros v; apply qu_arg; intros v'; apply qu_attempt; intros n; apply qu_array_call).
  all: try (apply qu_arg; intros v; apply qu_dict_call; intros r; constructor).
  all: try (apply qu_arg; intros v; apply qu_arg; intros v'; apply qu_dict_call; intros r; constructor).
  all: try apply qu_dict_list.
  - apply qu_arg. intros v. apply qu_with_array. intros p a x w. apply qu_attempt. intros x'. repeat constructor.
  - unfold create_dict. destruct (pairs_of args) as [l|]; [|constructor]. apply qu_objects. intros h. apply qu_attempt. intros d. apply qu_new_box.
  - apply qu_dict_call. intros r. constructor.
Qed.
Lemma quiet_strlen args : quiet (std_strlen args).
Proof.
  apply qu_arg. intros v. unfold with_chars. destruct v; try constructor.
  - intros [s|a p|fs]; try constructor. apply qu_attempt. intros n. constructor.
  - apply qu_attempt. intros n. constructor.
Qed.
Lemma quiet_strings n : quiet (some_strings n).
Proof. induction n; constructor; intros; [constructor|exact IHn]. Qed.
Lemma quiet_all strict fn args : In fn (lib_functions strict Z.of_nat ++ host_functions) -> quiet (fn args).
Proof.
  intros I0. apply in_app_or in I0 as [I0|[<-|[<-|[<-|[]]]]]; [eapply quiet_lib; exact I0|apply quiet_strings|apply quiet_strlen|apply quiet_strings].
Qed.

(** Objects that only refer to older ones are not on a cycle. *)
Definition downward (s : thread store) : bool :=
  forallb (fun o => forallb (fun v => match ref_of v with Some b => b <? o_id o | None => true end) (kids lib_natives (t_host s) (o_body o))) (t_heap s).
Lemma downward_acyclic M s : m_natives M = lib_natives -> downward s = true -> ~ has_cycle M s.
Proof.
  intros NM D (id & _ & P). unfold downward in D. rewrite forallb_forall in D.
  assert (Ed : forall a b, edge (m_natives M) (t_host s) (t_heap s) a b -> b < a).
  { intros a b (o & v & Ho & Hg & Hr). assert (In o (t_heap s) /\ o_id o = a) as (Io & <-).
    { clear - Ho. induction (t_heap s) as [|x h IH]; simpl in Ho; [discriminate|]. destruct (Nat.eqb_spec (o_id x) a); [inversion Ho; subst; split; [left|]; auto|destruct (IH Ho); split; [right|]; auto]. }
    specialize (D o Io). rewrite forallb_forall in D. specialize (D v). rewrite Hr in D. apply Nat.ltb_lt. apply D. rewrite NM in Hg. clear -Hg.
    destruct Hg; cbn [kids]; auto. destruct (Nat.eqb_spec p 0); [contradiction|assumption]. }
  assert (forall a b, path (m_natives M) (t_host s) (t_heap s) a b -> b < a) as Pd by (induction 1; [auto|apply Ed in H; lia]).
  apply Pd in P. lia.
Qed.

Definition keep_machine (strict : bool) : machine store := box_machine keep_code strict host_functions.
Definition keep_step (u : thread store) : thread store := match execute_cycle (keep_machine true) no_poll 0 u with Ok (_, x) => x | _ => u end.

Lemma host_respects M w args fn : In fn host_functions -> respects M w args args true (fn args).
Proof.
  assert (St : forall n K, respects M w args K true (some_strings n)).
  { induction n; intros K; cbn [some_strings]; constructor; intros id; [|apply IHn]. constructor. intros v [<-|[]]. right. left. reflexivity. }
  intros [<-|[<-|[<-|[]]]]; try apply St.
  unfold std_strlen, arg. destruct (nth_error args 0) as [v|] eqn:E; [|constructor]. apply nth_error_In in E.
  assert (Q : forall K (o : outcome nat), respects M w args K true (attempt o (fun n => FRet (new_int (Z.of_nat n))))).
  { intros K o. destruct o; cbn [attempt]; try constructor. intros u [<-|[]]. left. reflexivity. }
  destruct v; cbn [with_chars]; try constructor; try apply Q. { exact E. }
  intros [s|a p|fs]; try constructor. apply Q.
Qed.

Definition keep_bare : machine store := with_foreign (keep_machine true) [].
Example keep_case :
  let Strict := with_library keep_bare true Z.of_nat host_functions in
  let Code := with_library keep_bare false Z.of_nat host_functions in
  let t := start_thread keep_bare (init_thread []) in
  m_natives keep_bare = lib_natives /\
  (forall fn w args, In fn host_functions -> respects Strict w args args true (fn args)) /\
  (forall s, visits Strict no_poll None t s -> ~ has_cycle Strict s) /\
  exists u', runs Strict no_poll t (Ok u') /\ t_ret u' = VInt 4 /\ length (t_heap u') = 21.
Proof.
  intros Strict Code t. split; [reflexivity|]. split; [intros; apply host_respects; assumption|].
  set (it := fun k => Nat.iter k keep_step keep_start).
  assert (St : forallb (fun k => downward (it k) && match execute_cycle (keep_machine true) no_poll 0 (it k) with
                 | Ok (b, _) => Bool.eqb b (k <? 23) | _ => false end) (seq 0 24) = true) by (vm_compute; reflexivity).
  rewrite forallb_forall in St.
  assert (Sp : forall k, k <= 23 -> downward (it k) = true /\ exists x, cycles Strict no_poll (it k) (Ok (k <? 23, x)) /\ x = it (S k)).
  { intros k Lk. specialize (St k). rewrite in_seq in St. specialize (St ltac:(lia)). apply andb_prop in St as (A & B). split; [exact A|].
    destruct (execute_cycle (keep_machine true) no_poll 0 (it k)) as [[b x]| | |] eqn:E; try discriminate. apply Bool.eqb_prop in B as ->.
    exists x. split; [split; [discriminate|exists 0; exact E]|]. change (it (S k)) with (keep_step (it k)). unfold keep_step. rewrite E. reflexivity. }
  assert (Nx : forall k t1, k <= 23 -> cycles Strict no_poll (it k) (Ok (true, t1)) -> k < 23 /\ t1 = it (S k)).
  { intros k t1 Lk C. destruct (Sp k Lk) as (_ & x & C' & ->). pose proof (cycles_det Strict no_poll _ _ _ C C') as X. injection X as Xb Xt.
    symmetry in Xb. apply Nat.ltb_lt in Xb. auto. }
  split.
  - assert (G : forall fl u s', visits Strict no_poll fl u s' -> forall k, k <= 23 -> u = it k -> downward s' = true).
    { intros fl u s' V.
      induction V as [fl u t1 Go C|fl u t1 s' Go C V IH|fl u a b nx fn f ar t0 t1 s' Go At Fn]; intros k Lk ->.
      - destruct (Nx _ _ Lk C) as [L ->]. apply Sp. lia.
      - destruct (Nx _ _ Lk C) as [L ->]. apply (IH (S k)); auto.
      - exfalso. apply nth_error_In in Fn. eapply quiet_passes; [eapply quiet_all; exact Fn|eassumption]. }
    intros s V. apply (downward_acyclic Strict s eq_refl). exact (G None t s V 0 (Nat.le_0_l 23) eq_refl).
  - exists (it 24). split; [split; [discriminate|]|split; vm_compute; reflexivity]. exists 40. vm_compute. reflexivity.
Qed.

(** ** Where the library does not keep objects alive *)

(** A string read back out of a primitive array after a collection is gone
    (std.c:204-209: such arrays are not marked). *)
Definition primitive_code : list instr :=
  [ICallF 0 22; IGetRetval; ICallF 1 1; IGetRetval; ISet 0; ICallF 0 24; IGet 0; IPush0; ICallF 2 5; IGetRetval; ICallF 1 23; IHalt].
Theorem primitive_array_dangles_refuted :
  let M := box_machine primitive_code false host_functions in
  let t := start_thread M (init_thread []) in
  runs M real_poll t UB /\ exists t', runs M no_poll t (Ok t') /\ t_ret t' = VInt 4.
Proof.
  split; [split; [discriminate|exists 40; vm_compute; reflexivity]|].
  eexists. split; [split; [discriminate|exists 40; vm_compute; reflexivity]|reflexivity].
Qed.
Print Assumptions primitive_array_dangles_refuted.

(** resize that grows an array exposes what earlier pops left behind, collected
    or not (array.c:31-36 writes the default [len] places too far, so not into
    the new places when the array was not empty). *)
Definition resize_code : list instr :=
  [ICallF 0 22; IGetRetval; ICallF 0 22; IGetRetval; ICallF 2 0; IGetRetval; ISet 0; IGet 0; ICallF 1 7; ICallF 0 24;
   IGet 0; IPushInt 2; ICallF 2 11; IGet 0; IPush1; ICallF 2 5; IGetRetval; ICallF 1 23; IHalt].
Theorem resize_resurrects_refuted :
  let M := box_machine resize_code false host_functions in
  let t := start_thread M (init_thread []) in
  runs M real_poll t UB /\ exists t', runs M no_poll t (Ok t') /\ t_ret t' = VInt 4.
Proof.
  split; [split; [discriminate|exists 40; vm_compute; reflexivity]|].
  eexists. split; [split; [discriminate|exists 40; vm_compute; reflexivity]|reflexivity].
Qed.
Print Assumptions resize_resurrects_refuted.

(** Sorting subtracts, which overflows for distant numbers; emptying the array
    of keys of an empty dict goes through a null pointer. *)
Theorem sort_and_clear_undefined_refuted :
  do_calls (box_machine [] false []) Z.of_nat box_thread [QArray false [VInt 2147483647; VInt (-1)]; QSort (VNative 0)] = UB /\
  do_calls (box_machine [] false []) Z.of_nat box_thread [QDict []; QKeys (VNative 0); QList (VNative 1) AClear] = UB.
Proof. split; vm_compute; reflexivity. Qed.
Print Assumptions sort_and_clear_undefined_refuted.
