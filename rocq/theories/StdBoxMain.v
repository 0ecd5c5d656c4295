(** * The library's containers are lists and maps: the whole library *)
From Coq Require Import Sorted Permutation.
From Verif Require Import Base Float64 Values Heap Code VM Array ArraySpec ArrayProofs Dict DictSpec DictProofs DictTheory Std StdSpec StdProofs
  StdBox StdBoxSpec StdBoxGC StdBoxProofs.
Local Open Scope nat_scope.

Section Main.
Variable M : machine store.
Variable place : nat -> Z.
Variable h0 : heap.
Notation R := (Forall2 (Rbox place h0)).

Lemma R_list w B i t l : R w B -> nth_error B i = Some (BoxList t l) -> exists x, nth_error w i = Some (CArr x) /\ Rarr x t l /\ i < length w.
Proof.
  intros F E. destruct (Forall2_nth _ _ _ F i _ E) as ([x|d] & C & X); [|contradiction X]. exists x. repeat split; auto. apply nth_error_Some. congruence.
Qed.
Lemma R_map w B i m : R w B -> nth_error B i = Some (BoxMap m) -> exists d, nth_error w i = Some (CDict d) /\ Rd place h0 [] d m /\ i < length w.
Proof.
  intros F E. destruct (Forall2_nth _ _ _ F i _ E) as ([x|d] & C & X); [contradiction X|]. exists d. repeat split; auto. apply nth_error_Some. congruence.
Qed.
Lemma R_length w B : R w B -> length w = length B.
Proof. induction 1; cbn; congruence. Qed.
Lemma R_new w B c b : R w B -> Rbox place h0 c b -> R (w ++ [c]) (B ++ [b]).
Proof. intros F X. apply Forall2_app; auto. Qed.

Definition good_reply (t : thread store) (B : list box) (c : box_call) : Prop :=
  exists r, answers (t_heap t) B c r /\
    match r with
    | Some (B', rep) => exists w' v t', returns M (the_function place c) (the_arguments c) t v t' /\
        replied t rep (length B') w' v t' /\ R w' B'
    | None => aborts M (the_function place c) (the_arguments c) t
    end.

Lemma new_reply (t : thread store) (B : list box) c b cl p : R (t_host t) B -> Rbox place h0 cl b -> (0 <= t_pc t)%Z ->
  answers (t_heap t) B c (Some (B ++ [b], GivesNew p)) ->
  (forall callf, run_fprog M callf (the_function place c (the_arguments c)) t = run_fprog M callf (new_box cl p) t) ->
  good_reply t B c.
Proof.
  intros F X L A E. eexists. split; [exact A|]. exists (t_host t ++ [cl]). do 2 eexists. split; [|split].
  - intros callf. rewrite E. apply run_new_box. exact L.
  - split; [reflexivity|]. rewrite app_length, <- (R_length _ _ F). cbn [length]. rewrite Nat.add_1_r. reflexivity.
  - apply R_new; auto.
Qed.

Lemma list_call w B t v o i p tt l : R w B -> t_host t = w -> int_ok (QList v o) -> owns (t_heap t) v i p -> p = 1 \/ p = 2 -> nth_error B i = Some (BoxList tt l) ->
  op_supported tt l o = true -> good_reply t B (QList v o).
Proof.
  intros F <- IO Ow P E Sp. destruct (R_list _ _ _ _ _ F E) as (x & C & Rx & L). pose proof (array_step_sim x tt l o Rx Sp) as Sim.
  assert (Call : forall callf, run_fprog M callf (the_function place (QList v o) (the_arguments (QList v o))) t =
    run_fprog M callf (array_call false (the_arguments (QList v o)) o) t).
  { intros callf. destruct o; cbn [the_function the_arguments int_ok] in *; try reflexivity.
    all: try (unfold lib_array_insert, lib_array_set, lib_array_remove, lib_array_get, arg; cbn [nth_error to_int]; rewrite wrap32_in by exact IO; reflexivity).
    unfold lib_array_resize_fill, arg. cbn [nth_error number_to_int attempt]. rewrite IO. reflexivity. }
  assert (Run : forall callf, run_fprog M callf (the_function place (QList v o) (the_arguments (QList v o))) t =
     match array_step x o with Ok (x', r) => Ok (list_reply r, with_host t (update (t_host t) i (CArr x'))) | Abort => Abort | _ => UB end).
  { intros callf. rewrite Call. cbn [the_arguments]. apply run_array_call with (p := p); auto. }
  eexists. split; [eapply an_list; eauto|]. destruct (list_step l o) as [(l' & r)|].
  - destruct Sim as (x' & Es & R'). exists (update (t_host t) i (CArr x')). do 2 eexists. split; [|split].
    + intros callf. rewrite Run, Es. reflexivity.
    + split; reflexivity.
    + apply Forall2_replace; auto.
  - intros callf. rewrite Run, Sim. reflexivity.
Qed.

Lemma resize_call w B t v n i p tt l : R w B -> t_host t = w -> int_ok (QResize v n) -> owns (t_heap t) v i p -> p = 1 \/ p = 2 -> nth_error B i = Some (BoxList tt l) ->
  op_supported tt l (AResize n VNull) = true -> good_reply t B (QResize v n).
Proof.
  intros F <- IO Ow P E Sp. destruct (R_list _ _ _ _ _ F E) as (x & C & Rx & L). pose proof (array_step_sim x tt l _ Rx Sp) as Sim.
  assert (Run : forall callf, run_fprog M callf (the_function place (QResize v n) (the_arguments (QResize v n))) t =
     match array_step x (AResize n VNull) with Ok (x', r) => Ok (list_reply r, with_host t (update (t_host t) i (CArr x'))) | Abort => Abort | _ => UB end).
  { intros callf. etransitivity; [|exact (run_array_call M callf t v [VInt n] (AResize n VNull) i p x Ow P C)].
    cbn [the_function the_arguments int_ok] in *. unfold lib_array_resize, arg. cbn [nth_error number_to_int attempt]. rewrite IO. reflexivity. }
  eexists. split; [eapply an_resize; eauto|]. destruct (list_step l (AResize n VNull)) as [(l' & r)|] eqn:Ls.
  - destruct Sim as (x' & Es & R'). exists (update (t_host t) i (CArr x')). do 2 eexists. split; [|split].
    + intros callf. rewrite Run, Es. reflexivity.
    + split; [|reflexivity]. cbn in Ls. destruct (n <? 0)%Z; [discriminate|]. injection Ls as <- <-; reflexivity.
    + apply Forall2_replace; auto.
  - intros callf. rewrite Run, Sim. reflexivity.
Qed.

Lemma sort_run (t : thread store) v i p x : owns (t_heap t) v i p -> p = 1 \/ p = 2 -> nth_error (t_host t) i = Some (CArr x) -> forall callf,
  run_fprog M callf (lib_array_sort [v]) t = match array_sort x with Ok x' => Ok (VNull, with_host t (update (t_host t) i (CArr x'))) | Abort => Abort | _ => UB end.
Proof.
  intros Ow P C callf. unfold lib_array_sort, arg. cbn [nth_error]. rewrite (run_with_array M callf t v i p x _ Ow P C). unfold attempt.
  destruct (array_sort x) as [x'| | |]; cbn [run_fprog]; auto. rewrite set_cell_S. reflexivity.
Qed.

Lemma dict_reply (t : thread store) B c v rest o k i d m r0 : R (t_host t) B -> owns (t_heap t) v i 3 -> nth_error B i = Some (BoxMap m) -> nth_error (t_host t) i = Some (CDict d) ->
  Rd place h0 [] d m -> i < length (t_host t) ->
  (forall q, In q (op_keys o) \/ In q (map fst m) -> same_content h0 (t_heap t) q) ->
  (the_function place c (the_arguments c) = dict_call place (v :: rest) o (fun r => FRet (k r))) ->
  answers (t_heap t) B c r0 ->
  r0 = match map_step h0 m o with Some (m', r) => Some (match o with DGet _ => B | _ => replace B i (BoxMap m') end, Gives (k r)) | None => None end ->
  good_reply t B c.
Proof.
  intros F Ow E C Rd' L K Fn A Er. exists r0. split; [exact A|]. subst r0.
  destruct (run_dict_call M place h0 t v rest o i d m Ow C Rd' K) as (hk & Eq & S0).
  assert (Run : forall callf, run_fprog M callf (the_function place c (the_arguments c)) t =
     match dict_step place hk d o with Ok (d', r) => Ok (k r, with_host t (update (t_host t) i (CDict d'))) | Abort => Abort | _ => UB end).
  { intros callf. rewrite Fn, Eq. unfold attempt. destruct (dict_step place hk d o) as [(d' & r)| | |]; cbn [run_fprog]; auto. rewrite set_cell_S. reflexivity. }
  pose proof (dict_step_map place h0 hk d m o Rd' S0) as Sim. destruct (map_step h0 m o) as [(m' & r)|] eqn:Ms.
  - destruct Sim as (d' & Es & R'). exists (update (t_host t) i (CDict d')). do 2 eexists. split; [|split].
    + intros callf. rewrite Run, Es. reflexivity.
    + split; reflexivity.
    + assert (Same : m' = m -> R (update (t_host t) i (CDict d')) B) by (intros ->; eapply Forall2_same; eauto).
      destruct o; try (apply Forall2_replace; [exact F|exact L|exact R']). apply Same. cbn in Ms. destruct (hashable h0 k0); congruence.
  - intros callf. rewrite Run, Sim. reflexivity.
Qed.

Lemma dict_new (t : thread store) B args l : R (t_host t) B -> (0 <= t_pc t)%Z -> to_pairs args = Some l ->
  (forall q, In q (map fst l) -> same_content h0 (t_heap t) q) -> good_reply t B (QDict args).
Proof.
  intros F L P K.
  destruct (objects_run M (map fst l) [] t) as (hk & E & Pt & _ & Cv).
  { intros q id Q. apply (same_alive h0). auto. }
  { intros id ob X. discriminate X. }
  assert (S0 : forall q, In q (map fst l) -> same_content h0 hk q).
  { intros q Q. eapply part_same; [exact Pt| |apply K; exact Q]. intros id N. exact (Cv q id Q N). }
  set (os := map (fun e => (hk, DSet (fst e) (snd e))) l).
  assert (KS : keys_stable h0 os).
  { intros h1 o1 q h2 o2 I1 Q I2. apply in_map_iff in I1 as (e1 & [= <- <-] & I1). apply in_map_iff in I2 as (e2 & [= <- <-] & I2).
    cbn in Q. injection Q as <-. apply S0. apply in_map. exact I1. }
  destruct (dict_is_map_L place h0 os KS) as (d0 & E0 & X).
  assert (R0 : Rd place h0 os d0 []).
  { destruct (init_dict_RT 32 ltac:(lia)) as (d1 & E1 & R1). change (init_dict_n 32) with init_dict in E1. rewrite E0 in E1. injection E1 as <-.
    exists (repeat empty_slot 32). split; [exact R1|]. split; [apply empty_inv; lia|]. rewrite entries_repeat, repeat_length. split; [constructor|lia]. }
  pose proof (dict_run_map place h0 os os (incl_refl _) KS d0 [] R0) as Y. clear X.
  assert (Es : map snd os = map (fun e => DSet (fst e) (snd e)) l) by (unfold os; rewrite map_map; reflexivity).
  rewrite Es, <- (agree_sets h0 (t_heap t) l K []) in Y by (intros q []).
  assert (Fn : forall callf, run_fprog M callf (the_function place (QDict args) (the_arguments (QDict args))) t =
     run_fprog M callf (attempt (set_pairs place hk d0 l) (fun d => new_box (CDict d) 3)) t).
  { intros callf. cbn [the_function the_arguments]. unfold create_dict. rewrite <- pairs_same, P. rewrite E, E0. reflexivity. }
  rewrite set_pairs_run in Fn. fold os in Fn.
  pose proof (an_dict (t_heap t) B args l P) as A.
  destruct (map_run (t_heap t) [] (map (fun e => DSet (fst e) (snd e)) l)) as [(m & rs)|].
  - destruct Y as (d' & Er & R'). rewrite Er in Fn. cbn [attempt] in Fn. eapply new_reply; [exact F| |exact L|exact A|exact Fn]. cbn. eapply Rd_forget; eauto.
  - eexists. split; [exact A|]. intros callf. rewrite Fn, Y. reflexivity.
Qed.

Lemma dict_out (t : thread store) B c v i m (pick : value * value -> value) : R (t_host t) B -> (0 <= t_pc t)%Z -> owns (t_heap t) v i 3 -> nth_error B i = Some (BoxMap m) ->
  (the_function place c (the_arguments c) = dict_list [v] pick) ->
  (forall l, Permutation l (map pick m) -> answers (t_heap t) B c (Some (B ++ [BoxList (match m with [] => false | _ => true end) l], GivesNew 1))) ->
  good_reply t B c.
Proof.
  intros F L Ow E Fn A. destruct (R_map _ _ _ _ F E) as (d & C & Rd' & Li). destruct (Rd_facts _ _ _ _ _ Rd') as (l & En & Pm & _).
  destruct (push_all_R (map pick l) init_array false [] (conj eq_refl eq_refl)) as (a & Ea & Ra). cbn [app] in Ra.
  eapply new_reply with (cl := CArr a); [exact F| |exact L|apply (A (map pick l)), Permutation_map; exact Pm|].
  - cbn [Rbox]. destruct l as [|e l]; [apply Permutation_nil in Pm; subst m; exact Ra|]. destruct m as [|e' m]; [apply Permutation_sym, Permutation_nil in Pm; discriminate Pm|]. exact Ra.
  - intros callf. rewrite Fn. unfold dict_list, arg. cbn [nth_error]. rewrite (run_with_dict M callf t v i d _ Ow C). rewrite En. cbn [obind]. rewrite Ea. reflexivity.
Qed.

Lemma containers_L : faithful_to M place h0 R.
Proof.
  constructor.
  - constructor.
  - intros w B t c r0 F <- L IO K A. change (good_reply t B c). set (h := t_heap t) in *.
    inversion A; subst.
    + (* array *) destruct (init_ex_R vs) as (a & E & Ra). destruct prim; (eapply new_reply with (cl := CArr a) (b := BoxList true vs); [exact F|exact Ra|exact L|exact A|]);
        intros callf; cbn [the_function the_arguments]; unfold create_array, create_primitive_array; rewrite E; reflexivity.
    + eapply list_call; eauto.
    + eapply resize_call; eauto.
    + (* sort *) destruct (R_list _ _ _ _ _ F H1) as (x & C & Rx & Li). destruct (sort_R x t0 l Rx H2) as (x' & E & Rx').
      eexists. split; [eapply an_sort with (l' := sort_ints l); eauto; [apply Permutation_sym, sort_perm|apply sort_sorted]|].
      exists (update (t_host t) i (CArr x')). do 2 eexists. split; [|split].
      * intros callf. cbn [the_function the_arguments]. rewrite (sort_run t v i p x H H0 C callf), E. reflexivity.
      * split; reflexivity.
      * apply Forall2_replace; auto.
    + destruct (R_list _ _ _ _ _ F H1) as (y & C & Rx & Li). eexists. split; [exact A|]. exists (update (t_host t) i (CArr y)). do 2 eexists. split; [|split].
      * intros callf. cbn [the_function the_arguments]. rewrite (sort_run t v i p y H H0 C callf), (sort_one_R y t0 x Rx). reflexivity.
      * split; reflexivity.
      * eapply Forall2_same; eauto.
    + destruct (R_list _ _ _ _ _ F H1) as (y & C & Rx & Li). eexists. split; [exact A|]. intros callf. cbn [the_function the_arguments].
      rewrite (sort_run t v i p y H H0 C callf), (sort_abort_R y t0 l x Rx H2 H3 H4). reflexivity.
    + eapply dict_new; eauto. intros q Q. apply K. left. cbn. eauto.
    + (* odd *) eexists. split; [exact A|]. intros callf. cbn [the_function the_arguments]. unfold create_dict. rewrite <- pairs_same, H. reflexivity.
    + destruct (R_map _ _ _ _ F H0) as (d & C & Rd' & Li).
      assert (Kk : same_content h0 h k) by (apply K; left; reflexivity).
      assert (Km : forall q, In q (map fst m) -> same_content h0 h q) by (intros q Q; apply K; right; cbn; eauto).
      eapply (dict_reply t B _ v [k; x] (DSet k x) (fun _ => VNull)); eauto.
      * intros q [[<-|[]]|Q]; auto.
      * cbn [map_step]. rewrite (hashable_same h0 h k Kk). destruct (hashable h0 k); auto. rewrite (agree_set h0 h m k x Kk Km). reflexivity.
    + destruct (R_map _ _ _ _ F H0) as (d & C & Rd' & Li).
      assert (Kk : same_content h0 h k) by (apply K; left; reflexivity).
      assert (Km : forall q, In q (map fst m) -> same_content h0 h q) by (intros q Q; apply K; right; cbn; eauto).
      eapply (dict_reply t B _ v [k] (DGet k) (fun r => VBool (match r with DFound _ => true | _ => false end))); eauto.
      * intros q [[<-|[]]|Q]; auto.
      * cbn [map_step]. rewrite (hashable_same h0 h k Kk). destruct (hashable h0 k); auto. rewrite (agree_get h0 h m k Kk Km). destruct (m_get h0 m k); reflexivity.
    + destruct (R_map _ _ _ _ F H0) as (d & C & Rd' & Li).
      assert (Kk : same_content h0 h k) by (apply K; left; reflexivity).
      assert (Km : forall q, In q (map fst m) -> same_content h0 h q) by (intros q Q; apply K; right; cbn; eauto).
      eapply (dict_reply t B _ v [k] (DGet k) (fun r => match r with DFound x => x | _ => VNull end)); eauto.
      * intros q [[<-|[]]|Q]; auto.
      * cbn [map_step]. rewrite (hashable_same h0 h k Kk). destruct (hashable h0 k); auto. rewrite (agree_get h0 h m k Kk Km). destruct (m_get h0 m k); reflexivity.
    + destruct (R_map _ _ _ _ F H0) as (d & C & Rd' & Li).
      assert (Kk : same_content h0 h k) by (apply K; left; reflexivity).
      assert (Km : forall q, In q (map fst m) -> same_content h0 h q) by (intros q Q; apply K; right; cbn; eauto).
      eapply (dict_reply t B _ v [k] (DRemove k) (fun _ => VNull)); eauto.
      * intros q [[<-|[]]|Q]; auto.
      * cbn [map_step]. rewrite (hashable_same h0 h k Kk). destruct (hashable h0 k); auto. rewrite (agree_remove h0 h m k Kk Km). reflexivity.
    + destruct (R_map _ _ _ _ F H0) as (d & C & Rd' & Li).
      assert (Km : forall q, In q (map fst m) -> same_content h0 h q) by (intros q Q; apply K; right; cbn; eauto).
      eapply (dict_reply t B _ v [] DClear (fun _ => VNull)); eauto.
      intros q [[]|Q]; auto.
    + eapply (dict_out t B _ v i m fst); eauto. intros l' Pl. eapply an_keys; eauto.
    + eapply (dict_out t B _ v i m snd); eauto. intros l' Pl. eapply an_values; eauto.
  - intros w B i b F E. destruct (Forall2_nth _ _ _ F i b E) as (c & C & X). rewrite !children_cell, cell_at_S, C.
    destruct c as [x|d], b as [tt l|m]; try contradiction X; cbn [cell_kids].
    + eapply Rarr_kids; eauto.
    + eapply Rd_kids; eauto.
Qed.
End Main.
