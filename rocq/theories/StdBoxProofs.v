(** * The library's containers are lists and maps *)
From Coq Require Import Sorted Permutation.
From Verif Require Import Base Float64 Values Heap Code VM Array ArraySpec ArrayProofs Dict DictSpec DictProofs DictTheory Std StdSpec StdBox StdBoxSpec StdBoxGC.
Local Open Scope nat_scope.

Lemma Rarr_kids a t l : Rarr a t l -> array_kids a = l.
Proof.
  intros R. pose proof (Rarr_count _ _ _ R) as N. unfold array_kids. rewrite N.
  assert (X : forall k, k <= length l -> flat_map (fun i => match array_get a (Z.of_nat i) with Ok v => [v] | _ => [] end) (seq (length l - k) k) = skipn (length l - k) l).
  { induction k as [|k IH]; intros L; cbn [seq flat_map].
    - rewrite Nat.sub_0_r, skipn_all. reflexivity.
    - replace (S (length l - S k)) with (length l - k) by lia. rewrite IH by lia.
      destruct (nth_error l (length l - S k)) as [v|] eqn:E; [|apply nth_error_None in E; lia].
      rewrite (get_R a t l _ v R); [|unfold in_range; apply andb_true_intro; split; [apply Z.leb_le|apply Z.ltb_lt]; lia|rewrite Nat2Z.id; exact E].
      replace (length l - k) with (S (length l - S k)) by lia. cbn [app].
      clear -E. revert E. generalize (length l - S k) as n. intros n. revert n. induction l as [|x l IH]; intros [|n] E; try discriminate.
      + cbn in E. injection E as ->. reflexivity.
      + exact (IH n E). }
  specialize (X (length l) (le_n _)). rewrite Nat.sub_diag in X. exact X.
Qed.

Definition Rbox (place : nat -> Z) (h0 : heap) (c : cell) (b : box) : Prop :=
  match c, b with
  | CArr a, BoxList t l => Rarr a t l
  | CDict d, BoxMap m => Rd place h0 [] d m
  | _, _ => False
  end.

Lemma inv_weaken eqb hsh (P Q : value -> Prop) T : Inv eqb hsh P T -> (forall i, nn T i -> P (key T i) -> Q (key T i)) -> Inv eqb hsh Q T.
Proof.
  intros [A B C D E] W. constructor; auto. intros i N. apply W; auto.
Qed.

Lemma Rd_keys place h0 os d m : Rd place h0 os d m -> forall k, In k (dict_keys_of d) -> In k (map fst m).
Proof.
  intros (T & RT & HI & HP & L2) k K. unfold dict_keys_of in K. apply in_flat_map in K as (i & L & K). apply in_seq in L. pose proof RT as (Hb & _).
  rewrite Hb in L. rewrite (dkey_RT d T i (RT_RT' _ _ RT) ltac:(lia)) in K. destruct (is_null (key T i)) eqn:N; [contradiction K|]. destruct K as [<-|[]].
  apply in_map_iff. exists (at_ T i). split; [reflexivity|]. eapply Permutation_in; [exact HP|]. apply in_entries. exists i. repeat split; auto. lia.
Qed.

Lemma Rd_moment place h0 d m h o : Rd place h0 [] d m -> (forall k, In k (map fst m) -> same_content h0 h k) -> Rd place h0 [(h, o)] d m.
Proof.
  intros (T & RT & HI & HP & L2) K. exists T. split; [exact RT|]. split; [|split; [exact HP|exact L2]]. eapply inv_weaken; [exact HI|]. intros i N (G & _). split; [exact G|].
  intros h' o' [[= <- <-]|[]]. apply K. apply in_map_iff. exists (at_ T i). split; [reflexivity|]. eapply Permutation_in; [exact HP|].
  apply in_entries. exists i. split; [eapply nn_lt; exact N|auto].
Qed.
Lemma Rd_forget place h0 os d m : Rd place h0 os d m -> Rd place h0 [] d m.
Proof.
  intros (T & RT & HI & HP & L2). exists T. split; [exact RT|]. split; [|split; [exact HP|exact L2]]. eapply inv_weaken; [exact HI|]. intros i N (G & _). split; [exact G|]. intros h' o' [].
Qed.

Lemma Rd_kids place h0 os d m : Rd place h0 os d m -> Permutation (dict_kids d) (flat_map (fun e => [fst e; snd e]) m).
Proof.
  intros (T & RT & HI & HP & L2). pose proof RT as (Hb & _).
  apply Permutation_trans with (flat_map (fun e => [fst e; snd e]) (entries T)).
  2:{ clear - HP. induction HP; cbn [flat_map]; auto.
      - apply Permutation_app_head. exact IHHP.
      - rewrite !app_assoc. apply Permutation_app_tail. apply Permutation_app_comm.
      - eapply Permutation_trans; eauto. }
  assert (X : dict_kids d = flat_map (fun e => [fst e; snd e]) (entries T)); [|rewrite X; apply Permutation_refl].
  unfold dict_kids. rewrite Hb.
  assert (Y : forall n, n <= length T -> flat_map (fun i => match dkey d i with
                     | Ok k => if is_null k then [] else k :: match dval d i with Ok v => [v] | _ => [] end
                     | _ => [] end) (seq 0 n) = flat_map (fun e => [fst e; snd e]) (entries (firstn n T))).
  { induction n as [|n IH]; intros L; [reflexivity|]. rewrite seq_S, flat_map_app, IH by lia. cbn [Nat.add flat_map].
    rewrite (dkey_RT d T n (RT_RT' _ _ RT)), (dval_RT d T n (RT_RT' _ _ RT)) by lia.
    rewrite entries_firstn_S by lia. rewrite flat_map_app, app_nil_r. f_equal. unfold key. unfold ent1. destruct (is_null (fst (at_ T n))); reflexivity. }
  rewrite Y by lia. rewrite firstn_all. reflexivity.
Qed.

(** ** Reading the key objects *)
Definition part_of (hk h : heap) : Prop := forall id o, hget hk id = Some o -> exists o', hget h id = Some o' /\ o_body o' = o_body o.

Lemma hget_oid h id o : hget h id = Some o -> o_id o = id.
Proof. induction h as [|x h IH]; cbn; [discriminate|]. destruct (Nat.eqb_spec (o_id x) id); [intros [= <-]; auto|auto]. Qed.
Lemma hget_app h g id : hget (h ++ g) id = match hget h id with Some o => Some o | None => hget g id end.
Proof. induction h as [|x h IH]; cbn; auto. destruct (o_id x =? id); auto. Qed.

Definition names (v : value) (id : nat) : Prop := v = VStr id \/ v = VNative id.

Lemma objects_run (M : machine store) vs : forall hk t, (forall v id, In v vs -> names v id -> hget (t_heap t) id <> None) -> part_of hk (t_heap t) ->
  exists hk', (forall callf k, run_fprog M callf (with_objects vs hk k) t = run_fprog M callf (k hk') t) /\ part_of hk' (t_heap t) /\
    (forall id, hget hk id <> None -> hget hk' id <> None) /\ (forall v id, In v vs -> names v id -> hget hk' id <> None).
Proof.
  induction vs as [|v vs IH]; intros hk t A P; cbn [with_objects].
  - exists hk. split; [intros; reflexivity|]. split; [exact P|]. split; [auto|]. intros v id [].
  - assert (A' : forall v id, In v vs -> names v id -> hget (t_heap t) id <> None) by (intros u id U; apply A; right; exact U).
    assert (Easy : (forall id, ~ names v id) -> exists hk', (forall callf k, run_fprog M callf (with_objects vs hk k) t = run_fprog M callf (k hk') t) /\ part_of hk' (t_heap t) /\
      (forall id, hget hk id <> None -> hget hk' id <> None) /\ (forall u id, In u (v :: vs) -> names u id -> hget hk' id <> None)).
    { intros N. destruct (IH hk t A' P) as (hk' & E & P' & K & C). exists hk'. split; [exact E|]. split; [exact P'|]. split; [exact K|]. intros u id [<-|U]; [intros X; destruct (N id X)|apply C; exact U]. }
    assert (Hard : forall id, names v id -> ref_of v = Some id -> exists hk', (forall callf k, run_fprog M callf (FObj v (fun b => with_objects vs (hk ++ [mkObj id false b]) k)) t = run_fprog M callf (k hk') t) /\ part_of hk' (t_heap t) /\
      (forall id, hget hk id <> None -> hget hk' id <> None) /\ (forall u id, In u (v :: vs) -> names u id -> hget hk' id <> None)).
    { intros id N Rf. cbn [run_fprog]. setoid_rewrite Rf. destruct (hget (t_heap t) id) as [o|] eqn:G; [|exfalso; exact (A v id (or_introl eq_refl) N G)].
      destruct (IH (hk ++ [mkObj id false (o_body o)]) t A') as (hk' & E & P' & K & C).
      - intros x ox. rewrite hget_app. destruct (hget hk x) as [oy|] eqn:Gx; [intros [= <-]; apply P; exact Gx|]. cbn [hget o_id]. destruct (Nat.eqb_spec id x) as [<-|]; [|discriminate].
        intros [= <-]. exists o. auto.
      - exists hk'. split; [exact E|]. split; [exact P'|]. split.
        + intros x X. apply K. rewrite hget_app. destruct (hget hk x); [discriminate|contradiction X; reflexivity].
        + intros u x [<-|U]; [|apply C; exact U]. intros N'. assert (x = id) as -> by (destruct N as [->| ->], N' as [N'|N']; congruence).
          apply K. rewrite hget_app. destruct (hget hk id); [discriminate|]. cbn [hget o_id]. rewrite Nat.eqb_refl. discriminate. }
    destruct v; try (apply Easy; intros x [X|X]; discriminate X).
    + apply Hard; [left; reflexivity|reflexivity].
    + apply Hard; [right; reflexivity|reflexivity].
Qed.

Lemma part_same h0 h hk k : part_of hk h -> (forall id, names k id -> hget hk id <> None) -> same_content h0 h k -> same_content h0 hk k.
Proof.
  intros P C S'. destruct k; cbn [same_content] in *; auto.
  - destruct S' as (m & m' & s & A & B). destruct (hget hk id) as [o|] eqn:G; [|exfalso; exact (C id (or_introl eq_refl) G)].
    destruct (P _ _ G) as (o' & G' & E). rewrite G' in B. injection B as ->. cbn [o_body] in E. pose proof (hget_oid _ _ _ G) as Oi. destruct o as [oi om ob]. cbn in E, Oi. subst. eauto.
  - destruct S' as (m & m' & a & p & A & B). destruct (hget hk id) as [o|] eqn:G; [|exfalso; exact (C id (or_intror eq_refl) G)].
    destruct (P _ _ G) as (o' & G' & E). rewrite G' in B. injection B as ->. cbn [o_body] in E. pose proof (hget_oid _ _ _ G) as Oi. destruct o as [oi om ob]. cbn in E, Oi. subst. eauto 6.
Qed.

Lemma same_alive h0 h k : same_content h0 h k -> forall id, names k id -> hget h id <> None.
Proof.
  intros S' id [-> | ->]; cbn in S'.
  - destruct S' as (m & m' & s & _ & B). congruence.
  - destruct S' as (m & m' & a & p & _ & B). congruence.
Qed.

(** ** Maps over two heaps that agree on the keys *)
Lemma hashable_same h0 h k : same_content h0 h k -> hashable h k = hashable h0 k.
Proof.
  intros S'. destruct k; cbn [hashable]; auto; rewrite (same_content_addr h0 h _ S'); reflexivity.
Qed.
Lemma same_key_same h0 h a b : same_content h0 h a -> same_content h0 h b -> same_key h a b = same_key h0 a b.
Proof. intros A B. unfold same_key. rewrite (same_content_eq h0 h) by auto. reflexivity. Qed.

Section Agree.
Variables (h0 h : heap).
Let ok k := same_content h0 h k.
Lemma agree_find (m : fmap) k : ok k -> (forall q, In q (map fst m) -> ok q) ->
  find (fun e => same_key h (fst e) k) m = find (fun e => same_key h0 (fst e) k) m.
Proof.
  intros K A. induction m as [|(q & x) m IH]; cbn [find]; auto. rewrite (same_key_same h0 h); [|apply A; left; reflexivity|exact K].
  rewrite IH; auto. intros q' Q. apply A. right. exact Q.
Qed.
Lemma agree_get (m : fmap) k : ok k -> (forall q, In q (map fst m) -> ok q) -> m_get h m k = m_get h0 m k.
Proof. intros K A. unfold m_get. rewrite agree_find; auto. Qed.
Lemma agree_remove (m : fmap) k : ok k -> (forall q, In q (map fst m) -> ok q) -> m_remove h m k = m_remove h0 m k.
Proof.
  intros K A. unfold m_remove. apply filter_ext_in. intros e E. rewrite (same_key_same h0 h); auto. apply A. apply in_map. exact E.
Qed.
Lemma agree_set (m : fmap) k v : ok k -> (forall q, In q (map fst m) -> ok q) -> m_set h m k v = m_set h0 m k v.
Proof.
  intros K A. unfold m_set.
  assert (X : existsb (fun e => same_key h (fst e) k) m = existsb (fun e => same_key h0 (fst e) k) m).
  { clear -K A. induction m as [|(q & x) m IH]; cbn [existsb]; auto. rewrite (same_key_same h0 h); [|apply A; left; reflexivity|exact K].
    rewrite IH; auto. intros q' Q. apply A. right. exact Q. }
  rewrite <- X. destruct (existsb (fun e => same_key h (fst e) k) m); [|reflexivity]. apply map_ext_in. intros e E. rewrite (same_key_same h0 h); auto. apply A. apply in_map. exact E.
Qed.
Lemma m_set_keys g (m : fmap) k v q : In q (map fst (m_set g m k v)) -> In q (map fst m) \/ q = k.
Proof.
  unfold m_set. destruct (existsb (fun e => same_key g (fst e) k) m).
  - rewrite map_map. intros X. apply in_map_iff in X as (e & <- & E). left. destruct (same_key g (fst e) k); cbn; apply in_map; exact E.
  - rewrite map_app. intros X. apply in_app_or in X as [X|[<-|[]]]; auto.
Qed.
Lemma agree_sets (l : fmap) : (forall q, In q (map fst l) -> ok q) -> forall m : fmap, (forall q, In q (map fst m) -> ok q) ->
  map_run h m (map (fun e => DSet (fst e) (snd e)) l) = map_run h0 m (map (fun e => DSet (fst e) (snd e)) l).
Proof.
  induction l as [|(k & v) l IH]; intros L m A; cbn [map map_run map_step fst snd]; auto.
  assert (K : ok k) by (apply L; left; reflexivity). rewrite (hashable_same h0 h k K). destruct (hashable h0 k); auto. rewrite (agree_set m k v K A).
  rewrite IH; auto.
  - intros q Q. apply L. right. exact Q.
  - intros q Q. apply m_set_keys in Q as [Q| ->]; auto.
Qed.
End Agree.

(** ** Running the calls *)
Lemma Forall2_nth {A B} (P : A -> B -> Prop) l l' : Forall2 P l l' -> forall i b, nth_error l' i = Some b -> exists a, nth_error l i = Some a /\ P a b.
Proof. induction 1; intros [|i] b E; cbn in *; try discriminate; [injection E as <-; eauto|eauto]. Qed.
Lemma Forall2_replace (P : cell -> box -> Prop) w B : Forall2 P w B -> forall i a b, i < length w -> P a b -> Forall2 P (update w i a) (replace B i b).
Proof.
  induction 1 as [|x y w B XY F IH]; intros i a b L Pab; [cbn in L; lia|]. destruct i as [|i]; unfold update, replace; cbn [firstn skipn app].
  - constructor; auto.
  - constructor; [exact XY|]. apply (IH i a b); [cbn in L; lia|exact Pab].
Qed.
Lemma Forall2_same (P : cell -> box -> Prop) w B : Forall2 P w B -> forall i a b, nth_error B i = Some b -> P a b -> Forall2 P (update w i a) B.
Proof.
  induction 1 as [|x y w B XY F IH]; intros i a b L Pab; [destruct i; discriminate|]. destruct i as [|i]; unfold update; cbn [firstn skipn app].
  - cbn in L. injection L as ->. constructor; auto.
  - constructor; [exact XY|]. apply (IH i a b L Pab).
Qed.
Lemma replace_length B i b : i < length B -> length (replace B i b) = length B.
Proof. intros L. unfold replace. rewrite app_length. cbn [length]. rewrite firstn_length, skipn_length. lia. Qed.

Lemma cell_at_S w i : cell_at w (Z.of_nat (S i)) = nth_error w i.
Proof. unfold cell_at. rewrite (proj2 (Z.leb_gt _ _)) by lia. f_equal. lia. Qed.
Lemma set_cell_S w i c : set_cell w (Z.of_nat (S i)) c = update w i c.
Proof. unfold set_cell. f_equal. lia. Qed.

Section Run.
Variable M : machine store.
Variable place : nat -> Z.
Variable h0 : heap.
Variable callf : thread store -> Z -> list value -> outcome (value * thread store).
Notation run := (run_fprog M callf).

Lemma run_with_array (t : thread store) v i p x k : owns (t_heap t) v i p -> p = 1 \/ p = 2 -> nth_error (t_host t) i = Some (CArr x) ->
  run (with_array v k) t = run (k p (Z.of_nat (S i)) x (t_host t)) t.
Proof.
  intros (id & m & -> & G) P C. unfold with_array. cbn [run_fprog ref_of]. rewrite G. cbn [o_body].
  replace ((p =? 1) || (p =? 2)) with true by (destruct P as [-> | ->]; reflexivity). cbn [run_fprog]. rewrite cell_at_S, C. reflexivity.
Qed.
Lemma run_with_dict (t : thread store) v i d k : owns (t_heap t) v i 3 -> nth_error (t_host t) i = Some (CDict d) ->
  run (with_dict v k) t = run (k (Z.of_nat (S i)) d (t_host t)) t.
Proof.
  intros (id & m & -> & G) C. unfold with_dict. cbn [run_fprog ref_of]. rewrite G. cbn [o_body Nat.eqb run_fprog]. rewrite cell_at_S, C. reflexivity.
Qed.

Lemma run_array_call (t : thread store) v rest o i p x : owns (t_heap t) v i p -> p = 1 \/ p = 2 -> nth_error (t_host t) i = Some (CArr x) ->
  run (array_call false (v :: rest) o) t =
  match array_step x o with
  | Ok (x', r) => Ok (list_reply r, with_host t (update (t_host t) i (CArr x')))
  | Abort => Abort
  | _ => UB
  end.
Proof.
  intros Ow P C. unfold array_call, arg. cbn [nth_error]. rewrite (run_with_array t v i p x _ Ow P C). cbn [andb]. unfold attempt.
  destruct (array_step x o) as [(x' & r)| | |]; cbn [run_fprog]; auto. rewrite set_cell_S. destruct r; reflexivity.
Qed.

Lemma run_new_box (t : thread store) c p : (0 <= t_pc t)%Z -> run (new_box c p) t =
  Ok (VNative (t_next t), snd (alloc (with_host t (t_host t ++ [c])) (BNative (Z.of_nat (S (length (t_host t)))) p))).
Proof.
  intros L. unfold new_box. cbn [run_fprog with_host t_pc]. unfold oassert. rewrite (proj2 (Z.leb_le 0 (t_pc t)) L). reflexivity.
Qed.

End Run.

Section RunDict.
Variable M : machine store.
Variable place : nat -> Z.
Variable h0 : heap.

Lemma run_dict_call (t : thread store) v rest o i d m : owns (t_heap t) v i 3 -> nth_error (t_host t) i = Some (CDict d) -> Rd place h0 [] d m ->
  (forall q, In q (op_keys o) \/ In q (map fst m) -> same_content h0 (t_heap t) q) ->
  exists hk, (forall callf k, run_fprog M callf (dict_call place (v :: rest) o k) t = run_fprog M callf (attempt (dict_step place hk d o) (fun '(d', r) => FSetHost (set_cell (t_host t) (Z.of_nat (S i)) (CDict d')) (k r))) t) /\
    (forall q, In q (op_keys o) \/ In q (map fst m) -> same_content h0 hk q).
Proof.
  intros Ow C R K.
  (* the keys in the table are those of the map, in some order *)
  assert (Eq : forall q, In q (map fst m) -> In q (dict_keys_of d)).
  { destruct R as (T & RT & HI & HP & L2). intros q Q. apply in_map_iff in Q as (e & <- & Ie). apply Permutation_sym in HP. eapply Permutation_in in Ie; [|exact HP].
    apply in_entries in Ie as (j & L & <- & N). unfold dict_keys_of. apply in_flat_map. exists j. pose proof RT as (Hb & _). split; [apply in_seq; lia|].
    rewrite (dkey_RT d T j (RT_RT' _ _ RT) L). unfold nn in N. rewrite N. left. reflexivity. }
  destruct (objects_run M (op_keys o ++ dict_keys_of d) [] t) as (hk & E & P & _ & Cv).
  { intros q id Q. apply (same_alive h0). apply K. apply in_app_or in Q as [Q|Q]; [auto|right]. eapply Rd_keys; eauto. }
  { intros id ob X. discriminate X. }
  exists hk. split; [intros callf' k; unfold dict_call, arg; cbn [nth_error]; rewrite (run_with_dict M callf' t v i d _ Ow C); apply E|]. intros q Q. eapply part_same; [exact P| |apply K; exact Q].
  intros id N. apply (Cv q id); [|exact N]. apply in_or_app. destruct Q as [Q|Q]; auto.
Qed.

Lemma dict_step_map hk d m o : Rd place h0 [] d m -> (forall q, In q (op_keys o) \/ In q (map fst m) -> same_content h0 hk q) ->
  match map_step h0 m o with
  | Some (m', r) => exists d', dict_step place hk d o = Ok (d', r) /\ Rd place h0 [] d' m'
  | None => dict_step place hk d o = Abort
  end.
Proof.
  intros R K.
  assert (KS : keys_stable h0 [(hk, o)]).
  { intros h1 o1 q h2 o2 [[= <- <-]|[]] Q [[= <- <-]|[]]. apply K. left. destruct o; cbn in *; try (injection Q as <-; left; reflexivity). discriminate Q. }
  pose proof (dict_run_map place h0 [(hk, o)] [(hk, o)] (incl_refl _) KS d m (Rd_moment _ _ _ _ _ _ R (fun q Q => K q (or_intror Q)))) as X.
  cbn [map snd map_run dict_run] in X. destruct (map_step h0 m o) as [(m' & r)|].
  - destruct X as (d' & E & R'). apply bind_ok in E as ((d1 & r1) & E & E2). cbn in E2. injection E2 as -> ->. exists d'. split; [exact E|]. eapply Rd_forget; eauto.
  - destruct (dict_step place hk d o) as [(d1 & r1)| | |]; cbn in X; try discriminate; reflexivity.
Qed.
End RunDict.

(** ** Sorting *)
Lemma insert_perm z l : Permutation (insert_int z l) (z :: l).
Proof.
  induction l as [|y l IH]; cbn [insert_int]; [apply Permutation_refl|]. destruct (z <=? y)%Z; [apply Permutation_refl|].
  eapply Permutation_trans; [apply perm_skip; exact IH|]. apply perm_swap.
Qed.
Lemma sort_perm l : Permutation (sort_ints l) l.
Proof.
  induction l as [|z l IH]; cbn [sort_ints fold_right]; [constructor|]. eapply Permutation_trans; [apply insert_perm|]. constructor. exact IH.
Qed.
Lemma insert_sorted z l : Sorted Z.le l -> Sorted Z.le (insert_int z l).
Proof.
  induction l as [|y l IH]; cbn [insert_int]; intros S'; [repeat constructor|]. destruct (Z.leb_spec z y).
  - constructor; [exact S'|]. constructor. exact H.
  - inversion S' as [|? ? S1 H1]; subst. constructor; [apply IH; exact S1|]. destruct l as [|x l]; cbn [insert_int]; [constructor; lia|].
    destruct (z <=? x)%Z; constructor; [lia|]. inversion H1. assumption.
Qed.
Lemma sort_sorted l : Sorted Z.le (sort_ints l).
Proof. induction l as [|z l IH]; [constructor|]. apply insert_sorted. exact IH. Qed.

Lemma read_all_R a t l : Rarr a t l -> forall n i, i + n = length l -> read_all a i n = Ok (skipn i l).
Proof.
  intros R. induction n as [|n IH]; intros i E; cbn [read_all].
  - rewrite skipn_all2 by lia. reflexivity.
  - destruct (nth_error l i) as [v|] eqn:N; [|apply nth_error_None in N; lia].
    rewrite (get_R a t l _ v R); [|unfold in_range; apply andb_true_intro; split; [apply Z.leb_le|apply Z.ltb_lt]; lia|rewrite Nat2Z.id; exact N].
    cbn [obind]. rewrite IH by lia. f_equal. clear -N. revert i N. induction l as [|x l IH]; intros [|i] N; try discriminate.
    + cbn in N. injection N as ->. reflexivity.
    + exact (IH i N).
Qed.
Lemma as_ints_map l : as_ints (map VInt l) = Some l.
Proof. induction l as [|z l IH]; cbn; [reflexivity|]. rewrite IH. reflexivity. Qed.
Lemma as_ints_none l x : In x l -> (forall z, x <> VInt z) -> as_ints l = None.
Proof.
  induction l as [|y l IH]; intros I0 N; [contradiction I0|]. cbn [as_ints]. destruct I0 as [->|I0].
  - destruct x; cbn [as_int]; try reflexivity. destruct (N i eq_refl).
  - rewrite (IH I0 N). destruct (as_int y); reflexivity.
Qed.
Lemma comparable_true l : (forall a b, In a l -> In b l -> in_int32 (a - b) = true) -> comparable l = true.
Proof. intros A. unfold comparable. apply forallb_forall. intros a Ia. apply forallb_forall. intros b Ib. auto. Qed.

Lemma sort_R a t l : Rarr a t (map VInt l) -> (forall x y, In x l -> In y l -> in_int32 (x - y) = true) ->
  exists a', array_sort a = Ok a' /\ Rarr a' t (map VInt (sort_ints l)).
Proof.
  intros R C. unfold array_sort. rewrite (Rarr_count _ _ _ R), map_length. destruct (Nat.ltb_spec (length l) 2) as [L|L].
  - exists a. split; [reflexivity|]. destruct l as [|x [|y l]]; [exact R|exact R|cbn in L; lia].
  - destruct a as [b|]; [|destruct R as (_ & R); destruct l; [cbn in L; lia|discriminate R]].
    pose proof R as (Tr & N & F). rewrite map_length in *. rewrite (read_all_R _ _ _ R) by (rewrite map_length; lia). cbn [obind skipn].
    rewrite as_ints_map, (comparable_true l C).
    pose proof (Permutation_length (sort_perm l)) as PL.
    destruct (write_cells_R (map VInt (sort_ints l)) b 0 []) as (b' & E & N' & F'); [reflexivity|reflexivity| |].
    + rewrite map_length, PL. apply (f_equal (@length _)) in F. rewrite firstn_length, !map_length in F. unfold sb_cap. lia.
    + rewrite E. cbn [obind]. exists (Some b'). split; [reflexivity|]. split; [exact Tr|]. rewrite !map_length, PL in *. split; [congruence|]. exact F'.
Qed.
Lemma sort_one_R a t x : Rarr a t [x] -> array_sort a = Ok a.
Proof. intros R. unfold array_sort. rewrite (Rarr_count _ _ _ R). reflexivity. Qed.
Lemma sort_abort_R a t l x : Rarr a t l -> 2 <= length l -> In x l -> (forall z, x <> VInt z) -> array_sort a = Abort.
Proof.
  intros R L I0 N. unfold array_sort. rewrite (Rarr_count _ _ _ R). rewrite (proj2 (Nat.ltb_ge (length l) 2)) by lia.
  destruct a as [b|]; [|destruct R as (_ & ->); cbn in L; lia]. pose proof R as (_ & Nb & _).
  rewrite (read_all_R _ _ _ R) by lia. cbn [obind skipn]. rewrite (as_ints_none l x I0 N). reflexivity.
Qed.

Lemma push_all_R l : forall a t l0, Rarr a t l0 -> exists a', push_all a l = Ok a' /\ Rarr a' (match l with [] => t | _ => true end) (l0 ++ l).
Proof.
  induction l as [|v l IH]; intros a t l0 R; cbn [push_all].
  - exists a. rewrite app_nil_r. auto.
  - destruct (push_R a t l0 v R) as (a1 & E & R1). rewrite E. cbn [obind]. destruct (IH a1 true (l0 ++ [v]) R1) as (a' & E' & R'). exists a'. split; [exact E'|].
    rewrite <- app_assoc in R'. cbn [app] in R'. destruct l; exact R'.
Qed.

Lemma pairs_same args : to_pairs args = pairs_of args.
Proof.
  induction args as [args IH] using (induction_ltof1 _ (@length value)). unfold ltof in IH.
  destruct args as [|k [|v args]]; cbn [to_pairs pairs_of]; auto.
Qed.

Lemma set_pairs_run place hk l : forall d, set_pairs place hk d l =
  match dict_run place d (map (fun e => (hk, DSet (fst e) (snd e))) l) with Ok (d', _) => Ok d' | Abort => Abort | UB => UB | Fuel => Fuel end.
Proof.
  induction l as [|(k & v) l IH]; intros d; cbn [set_pairs map dict_run dict_step fst snd]; [reflexivity|].
  destruct (dict_set place hk d k v) as [d1| | |]; cbn [obind]; try reflexivity. rewrite IH. match goal with |- context [dict_run ?a ?b ?c] => destruct (dict_run a b c) as [(d2 & rs)| | |]; reflexivity end.
Qed.
