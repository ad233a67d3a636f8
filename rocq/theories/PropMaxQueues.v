(** C33, C34: the two priority queues over LCP entries. *)
From Verif Require Import Base LZSS Strategies MaxQueues StrategySpec SACompProofs ArraysProofs MSLProofs HeapProofs.
Local Open Scope nat_scope.

(** ** Specification: a set of items with keys, and what each call does to it *)
Record abs := mk_abs { a_mem : nat -> bool; a_key : nat -> nat }.
Inductive op := Insert (i : nat) | Remove (i : nat) | Decrease (i v : nat).
Definition abs_step (s : abs) (o : op) : abs :=
  match o with
  | Insert i => mk_abs (fun x => if x =? i then true else a_mem s x) (a_key s)
  | Remove i => mk_abs (fun x => if x =? i then false else a_mem s x) (a_key s)
  | Decrease i v => mk_abs (a_mem s) (fun x => if x =? i then v else a_key s x)
  end.
Definition abs_run (s : abs) (os : list op) : abs := fold_left abs_step os s.
Definition count (n : nat) (s : abs) : nat := length (filter (a_mem s) (seq 0 n)).
Definition is_max (n : nat) (s : abs) (m : nat) : Prop :=
  m < n /\ a_mem s m = true /\ forall x, x < n -> a_mem s x = true -> a_key s x <= a_key s m.

(** ** MaxLCPSuffixList *)
(** only contained entries are removed or decreased (to a value from 1 to the current one) *)
Fixpoint list_history (n : nat) (s : abs) (os : list op) : Prop :=
  match os with
  | [] => True
  | o :: os' =>
    match o with
    | Insert _ => False
    | Remove i => i < n /\ a_mem s i = true
    | Decrease i v => i < n /\ a_mem s i = true /\ 1 <= v <= a_key s i
    end /\ list_history n (abs_step s o) os'
  end.
Fixpoint msl_run (q : msl) (os : list op) : option msl :=
  match os with
  | [] => Some q
  | Insert i :: os' => do q <- msl_insert q i; msl_run q os'
  | Remove i :: os' => do q <- msl_remove q i; msl_run q os'
  | Decrease i v :: os' => do q <- msl_decrease q i v; msl_run q os'
  end.
Lemma msl_run_ok n mx os : forall q s, msl_ok n mx q -> (forall x, x < n -> msl_mem q x = a_mem s x /\ msl_key q x = a_key s x) -> list_history n s os ->
  exists q', msl_run q os = Some q' /\ msl_ok n mx q' /\ (forall x, x < n -> msl_mem q' x = a_mem (abs_run s os) x /\ msl_key q' x = a_key (abs_run s os) x).
Proof.
  pose proof (msl_queue n mx) as (_ & _ & _ & M4 & M5).
  induction os as [|o os IH]; intros q s V E H; cbn [msl_run abs_run fold_left].
  - exists q. auto.
  - destruct H as [H1 H2]. destruct o as [i|i|i v]; [destruct H1| |].
    + destruct H1 as [Hi Hm]. rewrite <- (proj1 (E i Hi)) in Hm. destruct (M4 q i V Hi Hm) as (q1 & X & V1 & F). cbn [msl_ops q_remove] in X. rewrite X. cbn [obind].
      apply IH; auto. intros x Hx. destruct (F x Hx) as [F1 F2]. destruct (E x Hx) as [E1 E2]. cbn. rewrite F1, F2, E1, E2. split; auto.
      destruct (x =? i); simpl; [apply andb_false_r|apply andb_true_r].
    + destruct H1 as (Hi & Hm & Hv). destruct (E i Hi) as [Ei Ek]. rewrite <- Ei in Hm. rewrite <- Ek in Hv.
      destruct (M5 q i v V Hi Hm Hv) as (q1 & X & V1 & F). cbn [msl_ops q_decrease] in X. rewrite X. cbn [obind].
      apply IH; auto. intros x Hx. destruct (F x Hx) as [F1 F2]. destruct (E x Hx) as [E1 E2]. cbn. rewrite F1, F2, E1, E2. auto.
Qed.

(** C34. After construction from any LCP array whose entries do not exceed [mx], with any
    threshold >= 1, and any history: no access outside the arrays; contains() is exact, the
    LCP array has the decreased values, size() is the number of remaining entries and get_max()
    is a remaining entry with maximum LCP. *)
Theorem msl_tracks_maximum : forall lcp thr mx os,
  let n := length lcp in
  let s0 := mk_abs (fun x => (1 <=? x) && (thr <=? nth x lcp 0)) (fun x => nth x lcp 0) in
  1 <= thr -> 1 <= n -> (forall x, x < n -> nth x lcp 0 <= mx) -> list_history n s0 os ->
  let s := abs_run s0 os in
  exists q0 q, msl_new lcp thr mx = Some q0 /\ msl_run q0 os = Some q /\
    (forall x, x < n -> nth_error (l_in q) x = Some (a_mem s x) /\ nth_error (l_key q) x = Some (a_key s x)) /\
    l_size q = count n s /\ (l_size q <> 0 -> is_max n s (l_first q)).
Proof.
  intros lcp thr mx os n s0 Ht Hn Hm Hh s. destruct (msl_new_ok lcp thr mx Ht Hn Hm) as (q0 & E0 & V0 & K0).
  destruct (msl_run_ok n mx os q0 s0 V0) as (q & E & V & K); auto.
  { intros x Hx. destruct (K0 x Hx) as [A B]. cbn [s0 a_mem a_key]. split; auto. apply eq_true_iff_eq. rewrite B, andb_true_iff. lia. }
  exists q0, q. do 2 (split; auto). fold s in K. pose proof (msl_queue n mx) as (M1 & M2 & M3 & _ & _). cbn [msl_ops q_has q_key q_size q_top] in *.
  assert (S : l_size q = count n s).
  { rewrite M2 by auto. unfold count. f_equal. apply filter_ext_in. intros x Hx. apply in_seq in Hx. apply K. lia. }
  split; [|split; auto].
  - intros x Hx. destruct (M1 q x V Hx) as [A B]. destruct (K x Hx) as [<- <-]. auto.
  - intros Hne. destruct (M3 q V Hne) as (m & A & B & C & D). injection A as <-. destruct (K (l_first q) B) as [K1 K2].
    split; auto. split; [congruence|]. intros x Hx Mx. destruct (K x Hx) as [K3 K4]. rewrite <- K2, <- K4. apply D; auto. congruence.
Qed.
Print Assumptions msl_tracks_maximum.
Example msl_history : list_history 5 (mk_abs (fun x => (1 <=? x) && (2 <=? nth x [0; 3; 1; 7; 3] 0)) (fun x => nth x [0; 3; 1; 7; 3] 0))
  [Decrease 3 2; Remove 4].
Proof. cbn. lia. Qed.
(** a threshold of 0 with an entry 0: index[-1] *)
Theorem msl_threshold_0_refuted : msl_new [0; 0] 0 0 = None.
Proof. reflexivity. Qed.
Print Assumptions msl_threshold_0_refuted.

(** ** ArrayMaxHeap *)
(** items are inserted when absent (there must be room) and have keys >= 1; remove of an absent
    item is allowed (and has no effect); keys may also be changed to larger values *)
Fixpoint heap_history (n room : nat) (s : abs) (os : list op) : Prop :=
  match os with
  | [] => True
  | o :: os' =>
    match o with
    | Insert i => i < n /\ a_mem s i = false /\ 1 <= a_key s i /\ count n s < room
    | Remove i => i < n
    | Decrease i v => i < n /\ a_mem s i = true /\ 1 <= v
    end /\ heap_history n room (abs_step s o) os'
  end.
(** histories as a priority queue sees them: only an item with the maximum key is removed, keys
    are never increased *)
Fixpoint max_history (n : nat) (s : abs) (os : list op) : Prop :=
  match os with
  | [] => True
  | o :: os' =>
    match o with
    | Insert i => True
    | Remove i => a_mem s i = true -> is_max n s i
    | Decrease i v => v <= a_key s i
    end /\ max_history n (abs_step s o) os'
  end.
Fixpoint heap_run (h : heap) (os : list op) : option heap :=
  match os with
  | [] => Some h
  | Insert i :: os' => do h <- heap_insert h i; heap_run h os'
  | Remove i :: os' => do h <- heap_remove h i; heap_run h os'
  | Decrease i v :: os' => do h <- heap_decrease h i v; heap_run h os'
  end.
Notation hm := HeapProofs.mem.
Definition agrees (n u : nat) (h : heap) (s : abs) : Prop :=
  h_ok n u h /\ (forall x, x < n -> hm u h x = a_mem s x /\ hkey h x = a_key s x).
Lemma agrees_count n u h s : agrees n u h s -> h_size h = count n s.
Proof.
  intros [[C _] E]. rewrite (size_mem n u h C). unfold count. f_equal. apply filter_ext_in. intros x Hx. apply in_seq in Hx. apply E. lia.
Qed.
Lemma heap_step n u h s os o : agrees n u h s -> heap_history n u s (o :: os) ->
  exists h', heap_run h [o] = Some h' /\ agrees n u h' (abs_step s o) /\
    (ordered h -> max_history n s (o :: os) -> ordered h').
Proof.
  intros A [H1 _]. pose proof (agrees_count n u h s A) as Sz. pose proof A as [[C K] E]. destruct o as [i|i|i v]; cbn [heap_run].
  - destruct H1 as (Hi & Hm & Hk & Hr). rewrite <- (proj1 (E i Hi)) in Hm. rewrite <- (proj2 (E i Hi)) in Hk.
    destruct (insert_ok n u h i C Hi Hm ltac:(lia)) as (h' & -> & C' & Ek & Em & O). exists h'. split; auto. split; auto. split.
    + split; auto. intros x Hx X. unfold hkey in *. rewrite Ek. rewrite Em in X by auto. destruct (x =? i) eqn:Z; simpl in X; auto.
      apply Nat.eqb_eq in Z. subst. auto.
    + intros x Hx. destruct (E x Hx) as [E1 E2]. cbn. rewrite Em by auto. rewrite E1. unfold hkey in *. rewrite Ek. split; auto.
  - destruct (a_mem s i) eqn:Ms.
    + assert (Mh : hm u h i = true) by (rewrite (proj1 (E i H1)); auto).
      destruct (remove_ok n u h i C H1 Mh K) as (h' & -> & C' & Ek & Em & O). exists h'. split; auto. split; [split|].
      * split; auto. intros x Hx X. unfold hkey in *. rewrite Ek. rewrite Em in X by auto. apply andb_prop in X. apply K; tauto.
      * intros x Hx. destruct (E x Hx) as [E1 E2]. cbn. rewrite Em by auto. rewrite E1. unfold hkey in *. rewrite Ek. split; auto.
        destruct (x =? i); simpl; [apply andb_false_r|apply andb_true_r].
      * intros Or [MX _]. apply O; auto. right. specialize (MX Ms). destruct MX as (_ & _ & MX).
        destruct (in_heap n u h i C H1 Mh) as (P1 & _). pose proof C as (D & C1 & _). destruct (C1 (h_size h - 1) ltac:(lia)) as [Q1 Q2].
        assert (D4 : h_size h <= u) by apply D.
        assert (Ml : hm u h (nth (h_size h - 1) (h_heap h) 0) = true) by (unfold HeapProofs.mem; rewrite Q2; lia).
        rewrite (proj1 (E _ Q1)) in Ml. specialize (MX _ Q1 Ml). rewrite <- (proj2 (E _ Q1)), <- (proj2 (E _ H1)) in MX. exact MX.
    + assert (Mh : hm u h i = false) by (rewrite (proj1 (E i H1)); auto). unfold heap_remove. pose proof C as ((D1 & D2 & D3 & D4) & _).
      rewrite (nth_error_nth' _ u) by lia. cbn [obind]. unfold HeapProofs.mem in Mh. unfold h_undef. rewrite D2.
      replace (nth i (h_pos h) u =? u) with true by lia. cbn [obind]. exists h. split; auto. split; auto. split; auto.
      * split; auto.
      * intros x Hx. destruct (E x Hx) as [E1 E2]. cbn. split; auto. destruct (x =? i) eqn:Z; auto. apply Nat.eqb_eq in Z. subst. congruence.
  - destruct H1 as (Hi & Hm & Hv). rewrite <- (proj1 (E i Hi)) in Hm.
    destruct (decrease_ok n u h i v C Hi Hm Hv) as (h' & -> & C' & Ek & Em & O). exists h'. split; auto. split; [split|].
    + split; auto. intros x Hx X. unfold hkey in *. rewrite Ek by auto. rewrite Em in X by auto. destruct (x =? i); auto.
    + intros x Hx. destruct (E x Hx) as [E1 E2]. cbn. rewrite Em by auto. unfold hkey in *. rewrite Ek by auto. split; auto. destruct (x =? i); auto.
    + intros Or [Hle _]. apply O; auto. rewrite <- (proj2 (E i Hi)) in Hle. exact Hle.
Qed.
Lemma heap_run_cons h o os : heap_run h (o :: os) = do h' <- heap_run h [o]; heap_run h' os.
Proof. destruct o; cbn [heap_run]; [destruct (heap_insert h i)|destruct (heap_remove h i)|destruct (heap_decrease h i v)]; reflexivity. Qed.
Lemma heap_run_ok n u os : forall h s, agrees n u h s -> heap_history n u s os ->
  exists h', heap_run h os = Some h' /\ agrees n u h' (abs_run s os) /\ (ordered h -> max_history n s os -> ordered h').
Proof.
  induction os as [|o os IH]; intros h s A H.
  - exists h. cbn. auto.
  - rewrite heap_run_cons. destruct (heap_step n u h s os o A H) as (h1 & -> & A1 & O1). cbn [obind].
    destruct H as [H1 H2]. destruct (IH h1 (abs_step s o) A1 H2) as (h' & -> & A' & O'). exists h'. split; auto. split; auto.
    intros O M. apply O'; auto. apply M.
Qed.

(** C33. On every history of inserts, removes and key changes the heap stays inside its arrays;
    contains(), the keys and size() are exact and top() is one of the items.  If moreover only
    items with the maximum key are removed and keys are only decreased, top() has the maximum
    key. *)
Theorem heap_contents : forall key room os,
  let n := length key in
  let s0 := mk_abs (fun _ => false) (fun x => nth x key 0) in
  heap_history n room s0 os ->
  let s := abs_run s0 os in
  exists h, heap_run (heap_new key room) os = Some h /\
    (forall x, x < n -> q_has heap_ops h x = Some (a_mem s x) /\ q_key heap_ops h x = Some (a_key s x)) /\
    h_size h = count n s /\
    (h_size h <> 0 -> exists m, q_top heap_ops h = Some m /\ m < n /\ a_mem s m = true) /\
    (max_history n s0 os -> h_size h <> 0 -> exists m, q_top heap_ops h = Some m /\ is_max n s m).
Proof.
  intros key room os n s0 Hh s. destruct (heap_new_ok key room) as (C & M & O). fold n in C.
  assert (A0 : agrees n room (heap_new key room) s0).
  { split; [split; auto|].
    - intros x Hx X. rewrite M in X. discriminate.
    - intros x Hx. cbn [s0 a_mem a_key]. rewrite M. auto. }
  destruct (heap_run_ok n room os _ s0 A0 Hh) as (h & E & A & Or). exists h. split; auto. fold s in A.
  pose proof (heap_bag n room) as (M1 & _ & M3 & _). pose proof A as [V K].
  split; [|split; [|split]].
  - intros x Hx. destruct (M1 h x V Hx) as [X Y]. destruct (K x Hx) as [<- <-]. auto.
  - eapply agrees_count; eauto.
  - intros Hne. destruct (M3 h V Hne) as (m & X & Y & Z). exists m. split; auto. split; auto. rewrite <- (proj1 (K m Y)). auto.
  - intros Hmax Hne. destruct (M3 h V Hne) as (m & X & Y & Z). exists m. split; auto. split; auto. split; [rewrite <- (proj1 (K m Y)); auto|].
    intros x Hx Mx. destruct (K x Hx) as [K1 K2]. destruct (K m Y) as [K3 K4]. rewrite <- K2, <- K4. destruct V as [Cc _].
    rewrite <- K1 in Mx. destruct (in_heap n room h x Cc Hx Mx) as (P1 & P2 & _).
    pose proof (top_max n room h Cc (Or O Hmax) _ P1) as T. rewrite P2 in T. cbn [heap_ops q_top] in X.
    rewrite (nth_error_nth _ _ 0 X) in T. exact T.
Qed.
Print Assumptions heap_contents.
Example heap_example : heap_history 4 3 (mk_abs (fun _ => false) (fun x => nth x [5; 0; 9; 2] 0))
    [Insert 0; Insert 2; Insert 3; Decrease 2 4; Remove 0; Remove 0] /\
  max_history 4 (mk_abs (fun _ => false) (fun x => nth x [5; 0; 9; 2] 0))
    [Insert 0; Insert 2; Insert 3; Decrease 2 4; Remove 0].
Proof.
  cbn. repeat split; auto; try lia; cbn; try lia. intros x Hx. do 4 (destruct x as [|x]; [cbn; intros; try discriminate; lia|]). lia.
Qed.

(** Removing an item that does not have the maximum key can lose the order: the last item is
    moved down from the gap but never up.  *)
Theorem heap_remove_breaks_maximum_refuted : exists key os h m,
  heap_history (length key) 7 (mk_abs (fun _ => false) (fun x => nth x key 0)) os /\
  heap_run (heap_new key 7) os = Some h /\ q_top heap_ops h = Some m /\
  ~ is_max (length key) (abs_run (mk_abs (fun _ => false) (fun x => nth x key 0)) os) m.
Proof.
  exists [20; 5; 15; 3; 4; 11; 12], (map Insert (seq 0 7) ++ [Remove 3; Remove 0; Remove 2]). eexists. eexists.
  split; [cbn; repeat split; auto; cbn; lia|]. split; [vm_compute; reflexivity|]. split; [vm_compute; reflexivity|].
  intros (_ & _ & H). specialize (H 6). cbn in H. lia.
Qed.
Print Assumptions heap_remove_breaks_maximum_refuted.
(** an item with key 0 sinks into the absent children *)
Theorem heap_key_0_refuted : heap_run (heap_new [0; 0] 2) [Insert 0; Insert 1; Remove 0] = None.
Proof. vm_compute. reflexivity. Qed.
Print Assumptions heap_key_0_refuted.
