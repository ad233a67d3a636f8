(** C30: bit-packed integer vectors behave like arrays of [w]-bit numbers. *)
From Verif Require Import Base IntVec IntVecProofs.
Local Open Scope nat_scope.

(** ** Specification: a vector is a width and a list of numbers below 2^width *)
Definition cut (w : nat) (x : N) : N := (x mod 2 ^ N.of_nat w)%N.
Inductive vop :=
| OPush (x : N) | OPop | OSet (i : nat) (x : N) | OShrink (n : nat) | OResize (n : nat) (x : N)
| OInsert (p n : nat) (x : N) | OInsertList (p : nat) (xs : list N) | OErase (a b : nat) | OClear
| OWidth (w : nat) | OResizeWidth (n : nat) (x : N) (w : nat).
(** [None]: the call's precondition is violated.  OResizeWidth with the width unchanged and
    another size is left out: see [same_width_resize_refuted]. *)
Definition vspec (s : nat * list N) (o : vop) : option (nat * list N) :=
  let '(w, l) := s in
  match o with
  | OPush x => Some (w, l ++ [cut w x])
  | OPop => if length l =? 0 then None else Some (w, firstn (length l - 1) l)
  | OSet i x => if i <? length l then Some (w, firstn i l ++ cut w x :: skipn (i + 1) l) else None
  | OShrink n => if n <=? length l then Some (w, firstn n l) else None
  | OResize n x => Some (w, firstn n l ++ repeat (cut w x) (n - length l))
  | OInsert p n x => if p <=? length l then Some (w, firstn p l ++ repeat (cut w x) n ++ skipn p l) else None
  | OInsertList p xs => if p <=? length l then Some (w, firstn p l ++ map (cut w) xs ++ skipn p l) else None
  | OErase a b => if (a <=? b) && (b <=? length l) then Some (w, firstn a l ++ skipn b l) else None
  | OClear => Some (w, [])
  | OWidth w' => if (1 <=? w') && (w' <=? 64) then Some (w', map (cut w') l) else None
  | OResizeWidth n x w' =>
      if (1 <=? w') && (w' <=? 64) && negb ((w' =? w) && negb (n =? length l))
      then Some (w', map (cut w') (firstn n l) ++ repeat (cut w' x) (n - length l)) else None
  end.
Fixpoint vspec_run (s : nat * list N) (os : list vop) : option (nat * list N) :=
  match os with [] => Some s | o :: os' => match vspec s o with Some s' => vspec_run s' os' | None => None end end.

(** ** the same calls on the packed vector *)
Definition vcall (v : pvec) (o : vop) : option pvec :=
  match o with
  | OPush x => pv_push v x | OPop => pv_pop v | OSet i x => pv_set v i x | OShrink n => Some (pv_resize0 v n)
  | OResize n x => pv_resize v n x | OInsert p n x => pv_insert v p n x | OInsertList p xs => pv_insert_list v p xs
  | OErase a b => pv_erase v a b | OClear => Some (pv_clear v) | OWidth w => pv_width v w
  | OResizeWidth n x w => pv_resize_width v n x w
  end.
Fixpoint vrun (v : pvec) (os : list vop) : option pvec :=
  match os with [] => Some v | o :: os' => do v' <- vcall v o; vrun v' os' end.
(** what a client sees *)
Definition shows (v : pvec) (w : nat) (l : list N) : Prop :=
  pv_w v = w /\ pv_n v = length l /\ forall i, pv_get v i = nth_error l i.

Definition inv (v : pvec) (s : nat * list N) : Prop :=
  wf v /\ pv_fixed v = false /\ pv_w v = fst s /\ contents v = snd s.
Lemma inv_shows v s : inv v s -> shows v (fst s) (snd s).
Proof.
  intros (W & _ & Ew & Ec). split; auto. split; [rewrite <- Ec, contents_len; auto|]. intros i. rewrite <- Ec.
  destruct (Nat.lt_ge_cases i (pv_n v)).
  - rewrite get_ok by auto. symmetry. apply nth_error_nth'. rewrite contents_len; auto.
  - unfold pv_get. replace (i <? pv_n v) with false by lia. symmetry. apply nth_error_None. rewrite contents_len. auto.
Qed.
Lemma upd_split {A} (l : list A) i x : i < length l -> upd l i x = firstn i l ++ x :: skipn (i + 1) l.
Proof.
  revert i; induction l as [|a l IH]; intros [|i] H; simpl in *; try lia; auto. rewrite IH by lia. auto.
Qed.
Lemma cut_contents v : wf v -> map (cut (pv_w v)) (contents v) = contents v.
Proof.
  intros W. rewrite <- (map_id (contents v)) at 2. apply map_ext_in. intros x Hx.
  unfold contents in Hx. apply in_map_iff in Hx. destruct Hx as (i & <- & Hi). apply in_seq in Hi.
  apply N.mod_small. apply (get_w_ok _ _ (pv_n v)); [apply W|apply wf_room; auto|lia].
Qed.
Lemma resize_width_inv v n x w w0 l : inv v (w0, l) -> (1 <=? w) && (w <=? 64) && negb ((w =? w0) && negb (n =? length l)) = true ->
  exists v', pv_resize_width v n x w = Some v' /\ inv v' (w, map (cut w) (firstn n l) ++ repeat (cut w x) (n - length l)).
Proof.
  intros (W & F & Ew & Ec) H. simpl in Ew, Ec. subst l. rewrite contents_len in *.
  destruct (Nat.eq_dec w w0) as [->|Hne].
  - assert (n = pv_n v) by lia. subst n. rewrite Nat.sub_diag. simpl repeat. rewrite app_nil_r.
    rewrite firstn_all2 by (rewrite contents_len; auto). replace (map (cut w0) (contents v)) with (contents v) by (rewrite <- Ew; symmetry; apply cut_contents; auto).
    unfold pv_resize_width. rewrite Ew. replace (w0 <? w0) with false by lia. cbn [obind]. rewrite Nat.sub_diag.
    cbn [fill_w obind]. eexists. split; [reflexivity|]. split; [apply W|]. split; auto.
  - destruct (resize_width_ok v n x w W F) as (v' & E & W' & Ew' & F' & C); [lia|lia|].
    exists v'. split; auto. split; auto.
Qed.
Lemma vcall_ok v s o s' : inv v s -> vspec s o = Some s' -> exists v', vcall v o = Some v' /\ inv v' s'.
Proof.
  intros I H. destruct s as [w l]. pose proof I as (W & F & Ew & Ec). simpl in Ew, Ec.
  pose proof (contents_len v) as Ln. rewrite Ec in Ln.
  destruct o; cbn [vspec vcall] in *;
    repeat match type of H with (if ?c then _ else _) = _ => destruct c eqn:?; try discriminate end;
    apply Some_inj in H; subst s'.
  - destruct (push_ok v x W) as (v' & E & A1 & A2 & A3 & A4). exists v'. split; auto. (split; [exact A1|split; [congruence|split; [cbn [fst]; congruence|cbn [snd]]]]).
    rewrite A4, Ec, Ew. auto.
  - destruct (pop_ok v W ltac:(lia)) as (v' & E & A1 & A2 & A3 & A4). exists v'. split; auto. (split; [exact A1|split; [congruence|split; [cbn [fst]; congruence|cbn [snd]]]]).
    rewrite A4, Ec, <- Ln. auto.
  - destruct (set_ok v i x W ltac:(lia)) as (v' & E & A1 & A2 & A3 & A4). exists v'. split; auto. (split; [exact A1|split; [congruence|split; [cbn [fst]; congruence|cbn [snd]]]]).
    rewrite A4, Ec, Ew, upd_split by lia. auto.
  - destruct (resize0_shrink v n W ltac:(lia)) as [A1 A2]. eexists. split; [reflexivity|]. split; [exact A1|split; [auto|split; [auto|cbn [snd]]]].
    rewrite A2, Ec. auto.
  - destruct (resize_ok v n x W) as (v' & E & A1 & A2 & A3 & A4). exists v'. split; auto. (split; [exact A1|split; [congruence|split; [cbn [fst]; congruence|cbn [snd]]]]).
    rewrite A4, Ec, Ew, <- Ln. auto.
  - destruct (insert_ok v p n x W ltac:(lia)) as (v' & E & A1 & A2 & A3 & A4). exists v'. split; auto. (split; [exact A1|split; [congruence|split; [cbn [fst]; congruence|cbn [snd]]]]).
    rewrite A4, Ec, Ew. auto.
  - destruct (insert_list_ok xs v p W ltac:(lia)) as (v' & E & A1 & A2 & A3 & A4). exists v'. split; auto. (split; [exact A1|split; [congruence|split; [cbn [fst]; congruence|cbn [snd]]]]).
    rewrite A4, Ec, Ew. auto.
  - destruct (erase_ok v a b W ltac:(lia)) as (v' & E & A1 & A2 & A3 & A4). exists v'. split; auto. (split; [exact A1|split; [congruence|split; [cbn [fst]; congruence|cbn [snd]]]]).
    rewrite A4, Ec. auto.
  - destruct (clear_ok v W) as [A1 A2]. eexists. split; [reflexivity|]. split; [exact A1|split; [auto|split; [auto|cbn [snd]]]]. exact A2.
  - unfold pv_width. destruct (resize_width_inv v (length l) 0%N w0 w l I) as (v' & E & I').
    { rewrite Nat.eqb_refl. cbn [negb]. rewrite andb_false_r. cbn [negb]. rewrite andb_true_r. auto. }
    rewrite <- Ln. exists v'. split; auto. rewrite Nat.sub_diag in I'. simpl repeat in I'. rewrite app_nil_r, firstn_all in I'. auto.
  - eapply resize_width_inv; eauto.
Qed.
Lemma vrun_ok os : forall v s s', inv v s -> vspec_run s os = Some s' -> exists v', vrun v os = Some v' /\ inv v' s'.
Proof.
  induction os as [|o os IH]; intros v s s' I H; cbn [vspec_run vrun] in *.
  - apply Some_inj in H. subst. eauto.
  - destruct (vspec s o) as [s1|] eqn:E; [|discriminate].
    destruct (vcall_ok v s o s1 I E) as (v1 & E1 & I1). rewrite E1. cbn [obind]. eapply IH; eauto.
Qed.
Lemma empty_inv w : 1 <= w <= 64 -> inv (pv_empty w false) (w, []).
Proof. intros H. split; [split; auto; split; [constructor|auto]|]. repeat split; auto. Qed.

(** Any history of calls on an empty vector shows the client the same numbers as on a list. *)
Theorem packed_vector_history : forall w os w' l', 1 <= w <= 64 ->
  vspec_run (w, []) os = Some (w', l') ->
  exists v, vrun (pv_empty w false) os = Some v /\ shows v w' l'.
Proof.
  intros w os w' l' Hw H. destruct (vrun_ok os _ _ _ (empty_inv w Hw) H) as (v & E & I).
  exists v. split; auto. apply (inv_shows _ _ I).
Qed.
Print Assumptions packed_vector_history.
(** Writing element i changes element i to the low w bits and no other element. *)
Theorem packed_vector_set_get : forall w os w' l' i x, 1 <= w <= 64 ->
  vspec_run (w, []) os = Some (w', l') -> i < length l' ->
  exists v v', vrun (pv_empty w false) os = Some v /\ pv_set v i x = Some v' /\ pv_n v' = pv_n v /\
    pv_get v' i = Some (x mod 2 ^ N.of_nat w')%N /\
    forall j, j <> i -> pv_get v' j = pv_get v j.
Proof.
  intros w os w' l' i x Hw H Hi. destruct (vrun_ok os _ _ _ (empty_inv w Hw) H) as (v & E & I).
  pose proof (inv_shows _ _ I) as (S1 & S2 & S3). simpl in S1, S2, S3.
  assert (HS : vspec (w', l') (OSet i x) = Some (w', firstn i l' ++ cut w' x :: skipn (i + 1) l')).
  { cbn [vspec]. replace (i <? length l') with true by lia. auto. }
  destruct (vcall_ok v _ _ _ I HS) as (v' & E' & I'). cbn [vcall] in E'.
  pose proof (inv_shows _ _ I') as (T1 & T2 & T3). cbn [fst snd] in T1, T2, T3.
  exists v, v'. split; auto. split; auto. rewrite <- upd_split in * by auto. rewrite upd_length in T2. split; [lia|].
  split.
  - rewrite T3. apply nth_error_upd_eq; auto.
  - intros j Hj. rewrite T3, S3. apply nth_error_upd_ne. auto.
Qed.
Print Assumptions packed_vector_set_get.
(** The filling constructors, also for fixed-width vectors. *)
Theorem packed_vector_constructors : forall n w f, 1 <= w <= 64 ->
  shows (pv_sized n w f) w (repeat 0%N n) /\
  forall x, exists v, pv_filled n x w f = Some v /\ shows v w (repeat (x mod 2 ^ N.of_nat w)%N n).
Proof.
  assert (G : forall v w l, wf v -> pv_w v = w -> contents v = l -> shows v w l).
  { intros v w l W <- <-. split; auto. split; [rewrite contents_len; auto|]. intros i.
    destruct (Nat.lt_ge_cases i (pv_n v)).
    - rewrite get_ok by auto. symmetry. apply nth_error_nth'. rewrite contents_len; auto.
    - unfold pv_get. replace (i <? pv_n v) with false by lia. symmetry. apply nth_error_None. rewrite contents_len. auto. }
  intros n w f Hw. split.
  - destruct (sized_ok n w f Hw). apply G; auto.
  - intros x. destruct (filled_ok n x w f Hw) as (v & E & W & Ew & C). exists v. split; auto.
Qed.
Print Assumptions packed_vector_constructors.
(** operator== compares contents, whatever the unused bits hold. *)
Theorem packed_vector_equality : forall w1 os1 w2 os2 w l1 l2, 1 <= w1 <= 64 -> 1 <= w2 <= 64 ->
  vspec_run (w1, []) os1 = Some (w, l1) -> vspec_run (w2, []) os2 = Some (w, l2) ->
  exists v1 v2 r, vrun (pv_empty w1 false) os1 = Some v1 /\ vrun (pv_empty w2 false) os2 = Some v2 /\
    pv_eq v1 v2 = Some r /\ (r = true <-> l1 = l2).
Proof.
  intros w1 os1 w2 os2 w l1 l2 H1 H2 E1 E2.
  destruct (vrun_ok _ _ _ _ (empty_inv w1 H1) E1) as (v1 & R1 & W1 & _ & X1 & C1).
  destruct (vrun_ok _ _ _ _ (empty_inv w2 H2) E2) as (v2 & R2 & W2 & _ & X2 & C2). simpl in *.
  destruct (pv_eq_ok v1 v2 W1 W2 ltac:(congruence)) as (r & E & H). exists v1, v2, r. subst. auto.
Qed.
Print Assumptions packed_vector_equality.
(** Slices, and slices of slices, show the corresponding elements. *)
Theorem packed_slice : forall w os w' l' a b c d, 1 <= w <= 64 ->
  vspec_run (w, []) os = Some (w', l') -> a <= b <= length l' -> c <= d <= b - a ->
  exists v s t, vrun (pv_empty w false) os = Some v /\ ps_slice (ps_of v) a b = Some s /\ ps_slice s c d = Some t /\
    (forall i, ps_get (ps_of v) i = nth_error l' i) /\
    (forall i, ps_get s i = nth_error (firstn (b - a) (skipn a l')) i) /\
    (forall i, ps_get t i = nth_error (firstn (d - c) (skipn (a + c) l')) i).
Proof.
  intros w os w' l' a b c d Hw H Hab Hcd. destruct (vrun_ok os _ _ _ (empty_inv w Hw) H) as (v & E & I).
  pose proof (inv_shows _ _ I) as (S1 & S2 & S3). cbn [fst snd] in *. destruct I as (W & _).
  destruct (ps_of_ok v W) as [SW SG].
  destruct (slice_ok (ps_of v) a b SW) as (s & Es & Ws & Ns & Gs); [simpl; lia|].
  destruct (slice_ok s c d Ws) as (t & Et & Wt & Nt & Gt); [lia|].
  assert (NE : forall k o (l : list N) i, nth_error (firstn k (skipn o l)) i = if i <? k then nth_error l (o + i) else None).
  { clear. intros k o l i. revert o l. assert (X : forall (l : list N) o, nth_error (skipn o l) i = nth_error l (o + i)).
    { intros l o. revert l. induction o; intros [|x l]; simpl; auto. destruct i; auto. }
    intros o l. rewrite <- X. generalize (skipn o l). clear. intros l. revert k l.
    induction i as [|i IH]; intros [|k] [|x l]; simpl; auto; [destruct (S i <? S k); auto|].
    rewrite IH. auto. }
  exists v, s, t. split; auto. split; auto. split; auto. split; [|split].
  - intros i. rewrite SG. apply S3.
  - intros i. rewrite Gs, NE. destruct (i <? b - a); auto. rewrite SG. apply S3.
  - intros i. rewrite Gt, NE. destruct (i <? d - c) eqn:F; auto. rewrite Gs. replace (c + i <? b - a) with true by lia.
    rewrite SG, S3. f_equal. lia.
Qed.
Print Assumptions packed_slice.
(** The one-bit accessors of bit vectors coincide with the general ones at width 1. *)
Theorem bit_accessors : forall ws p x, Forall (fun a => (a < 2 ^ 64)%N) ws -> p < 64 * length ws ->
  read_bit ws p = read_int ws p 1 /\ write_bit ws p x = write_int ws p x 1.
Proof. intros. split; [apply read_bit_ok|apply write_bit_ok]; auto. Qed.
Print Assumptions bit_accessors.

(** ** Deviations from std::vector *)
(** resize(n) after a shrink or pop_back shows stale values instead of 0 *)
Theorem resize_stale_refuted : exists v v1, vrun (pv_empty 8 false) [OPush 5; OPush 7; OPop] = Some v /\
  v1 = pv_resize0 v 2 /\ pv_get v1 1 = Some 7%N.
Proof. eexists. eexists. split; [vm_compute; reflexivity|]. split; [reflexivity|vm_compute; reflexivity]. Qed.
Print Assumptions resize_stale_refuted.
(** resize(n, val, w) with the current width does nothing, whatever n *)
Theorem same_width_resize_refuted : forall v n x, wf v -> exists v', pv_resize_width v n x (pv_w v) = Some v' /\
  pv_n v' = pv_n v /\ contents v' = contents v.
Proof.
  intros v n x W. unfold pv_resize_width. replace (pv_w v <? pv_w v) with false by lia. cbn [obind].
  rewrite Nat.sub_diag. cbn [fill_w obind]. eexists. split; [reflexivity|]. split; auto.
Qed.
Print Assumptions same_width_resize_refuted.
(** width(w) on a fixed-width vector repacks the data although the width stays *)
Theorem fixed_width_change_refuted : exists v v', vrun (pv_empty 7 true) [OPush 100; OPush 101] = Some v /\
  pv_width v 5 = Some v' /\ pv_w v' = 7 /\ pv_get v 0 = Some 100%N /\ pv_get v' 0 <> Some 100%N.
Proof.
  eexists. eexists. split; [vm_compute; reflexivity|]. split; [vm_compute; reflexivity|]. split; [vm_compute; reflexivity|].
  split; [vm_compute; reflexivity|]. vm_compute. discriminate.
Qed.
Print Assumptions fixed_width_change_refuted.

(** non-vacuity: a history through every call, crossing word borders *)
Example history_example :
  let os := [OResize 9 100; OPush 123; OInsert 3 2 77; OInsertList 0 [1; 2; 300]%N; OErase 1 4; OWidth 13; OSet 10 9000;
             OResizeWidth 12 5 11; OPop; OShrink 10] in
  vspec_run (9, []) os = Some (11, [1; 100; 100; 77; 77; 100; 100; 100; 100; 100]%N) /\
  exists v, vrun (pv_empty 9 false) os = Some v /\ map (pv_get v) (seq 0 11) =
    [Some 1; Some 100; Some 100; Some 77; Some 77; Some 100; Some 100; Some 100; Some 100; Some 100; None]%N.
Proof. split; [vm_compute; reflexivity|]. eexists. split; vm_compute; reflexivity. Qed.
