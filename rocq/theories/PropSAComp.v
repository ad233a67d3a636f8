(** C35, C36: the arrays derived from a suffix array. *)
From Verif Require Import Base IntCodes SASpec IntVec RankSelect SAComp SACompProofs SparseProofs SadaProofs PropBWT PropRankSelect.
Local Open Scope nat_scope.

Definition small (text : list N) : Prop := (N.of_nat (length text) < 2 ^ 32)%N.

Lemma phi_lcp text sa f : is_sa text sa -> isphi text sa f -> forall i, 1 <= i < length text ->
  lcp_at text (nth i sa 0) (f (nth i sa 0)) = lcp_at text (nth (i - 1) sa 0) (nth i sa 0).
Proof. intros Hs F i Hi. rewrite F by auto. apply lcp_len_sym. Qed.
Lemma sa_not_last text sa i : is_sa text sa -> terminated text -> 1 <= i < length text -> nth i sa 0 < length text - 1.
Proof.
  intros Hs Ht Hi. pose proof (sa_lt text sa Hs i ltac:(lia)). cbv beta in H.
  destruct (Nat.eq_dec (nth i sa 0) (length text - 1)) as [E|]; [|lia]. exfalso.
  rewrite <- (first_is_last text sa Hs Ht) in E. apply (sa_inj text sa Hs) in E; lia.
Qed.

(** in every compress mode: construction stays inside the arrays, and
    ISA[SA[i]] = i, Phi[SA[i]] = SA[i-1], PLCP[SA[i]] = LCP[i] = lcp(SA[i-1], SA[i]), max_lcp is the maximum *)
Theorem companions_correct : forall cm text sa, terminated text -> is_sa text sa -> small text ->
  let n := length text in
  exists isa phi plcp mx lcp,
    isa_new cm sa = Some isa /\ phi_new cm sa = Some phi /\
    plcp_new cm text phi = Some (plcp, mx) /\ lcp_new cm sa plcp mx = Some lcp /\
    (forall i, i < n -> nth_error isa (nth i sa 0) = Some i) /\
    nth_error phi (nth 0 sa 0) = Some (nth (n - 1) sa 0) /\ nth_error lcp 0 = Some 0 /\
    (forall i, 1 <= i < n ->
       nth_error phi (nth i sa 0) = Some (nth (i - 1) sa 0) /\
       nth_error plcp (nth i sa 0) = Some (lcp_at text (nth (i - 1) sa 0) (nth i sa 0)) /\
       nth_error lcp i = Some (lcp_at text (nth (i - 1) sa 0) (nth i sa 0)) /\
       lcp_at text (nth (i - 1) sa 0) (nth i sa 0) <= mx) /\
    (mx = 0 \/ exists i, 1 <= i < n /\ mx = lcp_at text (nth (i - 1) sa 0) (nth i sa 0)).
Proof.
  intros cm text sa Ht Hs Hn n.
  destruct (isa_ok text sa Hs Hn cm) as (isa & E1 & _ & P1).
  destruct (phi_ok text sa Hs Hn cm (np text Ht)) as (phi0 & E2' & _ & P2 & P3).
  destruct (plcp_ok text sa Hs Ht Hn cm) as (phi & plcp & f & E2 & F & FL & E3 & L3 & P4 & P5).
  rewrite E2 in E2'. injection E2' as <-. fold n in L3, P4, P5, FL, P1, P2, P3.
  assert (V : forall i, 1 <= i < n -> nth_error plcp (nth i sa 0) = Some (lcp_at text (nth (i - 1) sa 0) (nth i sa 0)) /\
    lcp_at text (nth (i - 1) sa 0) (nth i sa 0) <= maxl (plcps text f)).
  { intros i Hi. pose proof (sa_not_last text sa i Hs Ht Hi) as B. fold n in B. split.
    - rewrite P4 by auto. f_equal. apply (phi_lcp text sa); auto.
    - rewrite <- (phi_lcp text sa f) by auto. apply (plcp_lt text sa); auto. }
  destruct (lcp_ok text sa Hs Ht Hn cm plcp (maxl (plcps text f)) V) as (lcp & E4 & _ & P6 & P7).
  { apply (maxl_lt text sa); auto. }
  exists isa, phi, plcp, (maxl (plcps text f)), lcp. do 7 (split; auto). split.
  - intros i Hi. destruct (V i Hi). auto.
  - destruct (plcps text f) eqn:Q; [left; auto|right].
    assert (X : In (maxl (plcps text f)) (plcps text f)) by (apply maxl_in; rewrite Q; discriminate).
    rewrite <- Q. unfold plcps in X at 2. apply in_map_iff in X. destruct X as (q & E & Hq). apply in_seq in Hq. fold n in Hq.
    destruct (phi_pred text sa Hs Ht f q F ltac:(fold n; lia)) as (k & Hk & Ek & Ep). exists k. split; auto.
    rewrite <- E. rewrite <- (phi_lcp text sa f) by auto. cbv beta in Ek. rewrite Ek. auto.
Qed.
Print Assumptions companions_correct.

(** at the last text position, whose suffix has no predecessor, PLCP keeps Phi's value *)
Theorem plcp_last_refuted : exists text sa phi plcp mx, terminated text /\ is_sa text sa /\
  phi_new CPlain sa = Some phi /\ plcp_new CPlain text phi = Some (plcp, mx) /\
  nth_error plcp (length text - 1) = Some (nth (length text - 1) sa 0) /\ mx < nth (length text - 1) sa 0.
Proof.
  exists [97; 98; 0]%N, [2; 0; 1]. eexists. eexists. eexists.
  split; [exists [97; 98]%N; split; auto; repeat constructor; discriminate|]. split; [apply sa_checked; reflexivity|].
  split; [vm_compute; reflexivity|]. split; [vm_compute; reflexivity|]. split; [reflexivity|simpl; lia].
Qed.
Print Assumptions plcp_last_refuted.

(** the sparse inverse: for every permutation and every sampling distance t >= 1 *)
Theorem sparse_isa_correct : forall (sa : list nat) t, 1 <= t -> sa <> [] ->
  Permutation sa (seq 0 (length sa)) -> (N.of_nat (length sa) < 2 ^ 32)%N ->
  exists d, sparse_new sa t = Some d /\ forall i, i < length sa -> sparse_get d (nth i sa 0) = Some i.
Proof.
  intros sa t Ht Hne P Hn. apply sparse_ok; auto.
  - lia.
  - destruct sa; [congruence|simpl; lia].
  - intros i Hi. assert (X : In (nth i sa 0) (seq 0 (length sa))) by (apply (Permutation_in _ P), nth_In; auto).
    apply in_seq in X. lia.
  - intros i j Hi Hj E. assert (ND : NoDup sa) by (apply (Permutation_NoDup (Permutation_sym P)), seq_NoDup).
    rewrite (NoDup_nth sa 0) in ND. apply ND; auto.
Qed.
Print Assumptions sparse_isa_correct.

Lemma plcp_chain text sa f plcp : is_sa text sa -> terminated text -> isphi text sa f -> length plcp = length text ->
  (forall q, q < length text - 1 -> nth_error plcp q = Some (lcp_at text q (f q))) -> chain 0 plcp.
Proof.
  intros Hs Ht F L P. apply chain_nth. intros [|i] Hi; [simpl; lia|]. cbn [nth]. rewrite L in Hi.
  rewrite (nth_error_nth _ _ 0 (P i ltac:(lia))).
  destruct (Nat.eq_dec (S i) (length text - 1)) as [E|].
  - destruct (phi_pred text sa Hs Ht f i F ltac:(lia)) as (k & Hk & Ek & Ep). cbv beta in Ek, Ep.
    assert (f i < length text) by (rewrite Ep; apply (sa_lt text sa); auto; lia).
    destruct (lcp_in text Ht i (f i)); try lia.
    rewrite <- Ek at 1. rewrite Ep. intros X. apply (sa_inj text sa Hs) in X; lia.
  - rewrite (nth_error_nth _ _ 0 (P (S i) ltac:(lia))). pose proof (kasai text sa Hs Ht f i F ltac:(lia)).
    rewrite Nat.add_1_r in H. rewrite (Nat.add_1_r i) in *. lia.
Qed.
Lemma last_nth {A} (l : list A) d : last l d = nth (length l - 1) l d.
Proof. induction l as [|x l IH]; auto. simpl. destruct l; auto. rewrite IH. simpl. rewrite Nat.sub_0_r. auto. Qed.

(** CompressedLCP answers like the LCP array at every index except 0; there it returns the value
    PLCP keeps for the last text position, a remnant of SA[n-1] *)
Theorem compressed_lcp_correct : forall cm text sa, terminated text -> is_sa text sa -> small text ->
  exists phi plcp mx d, phi_new cm sa = Some phi /\ plcp_new cm text phi = Some (plcp, mx) /\ clcp_new plcp = Some d /\
    (forall i, 1 <= i < length text -> clcp_get sa d i = Some (lcp_at text (nth (i - 1) sa 0) (nth i sa 0))) /\
    clcp_get sa d 0 = nth_error plcp (length text - 1) /\
    (cm = CPlain -> clcp_get sa d 0 = Some (nth (length text - 1) sa 0)).
Proof.
  intros cm text sa Ht Hs Hn.
  destruct (plcp_ok text sa Hs Ht Hn cm) as (phi & plcp & f & E2 & F & FL & E3 & L3 & P4 & P5). cbv beta in *.
  set (n := length text) in *. assert (Hp : 0 < n) by (apply np; auto).
  assert (C : chain 0 plcp) by (apply (plcp_chain text sa f); auto).
  assert (HB : nth (n - 1) sa 0 < n) by (apply (sa_lt text sa Hs); fold n; lia).
  destruct (clcp_ok plcp C) as (d & Ed & Q).
  { rewrite last_nth, L3. rewrite (nth_error_nth _ _ 0 P5).
    assert (cap (bits_of (maxl (plcps text f))) (nth (n - 1) sa 0) <= nth (n - 1) sa 0).
    { unfold cap. pose proof (N.mod_le (N.of_nat (nth (n - 1) sa 0)) (2 ^ N.of_nat (bits_of (maxl (plcps text f))))).
      assert (2 ^ N.of_nat (bits_of (maxl (plcps text f))) <> 0)%N by (apply N.pow_nonzero; discriminate). specialize (H H0). 
      clear -H. lia. }
    unfold small in Hn. fold n in Hn. destruct cm; lia. }
  assert (G : forall i, i < n -> clcp_get sa d i = nth_error plcp (nth i sa 0)).
  { intros i Hi. unfold clcp_get. rewrite (sa_ne text sa Hs i Hi). cbn [obind].
    assert (B : nth i sa 0 < n) by (apply (sa_lt text sa Hs); auto).
    destruct (nth_error plcp (nth i sa 0)) eqn:E.
    - rewrite (Q _ _ E). cbn [obind]. f_equal. lia.
    - apply nth_error_None in E. lia. }
  assert (G0 : clcp_get sa d 0 = nth_error plcp (n - 1)).
  { rewrite G by auto. f_equal. apply (first_is_last text sa); auto. }
  exists phi, plcp, (maxl (plcps text f)), d. do 3 (split; auto). split.
  - intros i Hi. rewrite G by lia. rewrite P4 by (apply sa_not_last; auto). f_equal. apply (phi_lcp text sa); auto.
  - split; auto. intros ->. rewrite G0, P5. auto.
Qed.
Print Assumptions compressed_lcp_correct.
Theorem compressed_lcp_first_refuted : exists text sa phi plcp mx d, terminated text /\ is_sa text sa /\
  phi_new CPlain sa = Some phi /\ plcp_new CPlain text phi = Some (plcp, mx) /\ clcp_new plcp = Some d /\
  clcp_get sa d 0 = Some 1.
Proof.
  exists [97; 98; 0]%N, [2; 0; 1]. eexists. eexists. eexists. eexists.
  split; [exists [97; 98]%N; split; auto; repeat constructor; discriminate|]. split; [apply sa_checked; reflexivity|].
  split; [vm_compute; reflexivity|]. split; [vm_compute; reflexivity|]. split; [vm_compute; reflexivity|]. vm_compute. reflexivity.
Qed.
Print Assumptions compressed_lcp_first_refuted.

(** the forward iterator's values for the first [k] positions *)
Fixpoint it_run (k : nat) (bs : list bool) (it : lcpit) : option (list nat) :=
  match k with
  | O => Some []
  | S k' => do r <- it_value bs it; do l <- it_run k' bs (it_advance (snd r)); Some (fst r :: l)
  end.
(** LCPSada and the forward iterator answer like the LCP and PLCP arrays, at every index *)
Theorem lcp_sada_correct : forall text sa, terminated text -> is_sa text sa -> small text ->
  let n := length text in
  exists phi plcp bs, sada_phi sa = Some phi /\ sada_plcp text phi = Some plcp /\ sada_bits plcp = Some bs /\
    sada_get sa bs 0 = Some 0 /\
    (forall i, 1 <= i < n -> sada_get sa bs i = Some (lcp_at text (nth (i - 1) sa 0) (nth i sa 0))) /\
    (exists values, it_run n bs (mk_it 0 0 0) = Some values /\ nth_error values (n - 1) = Some 0 /\
       forall i, 1 <= i < n -> nth_error values (nth i sa 0) = Some (lcp_at text (nth (i - 1) sa 0) (nth i sa 0))).
Proof.
  intros text sa Ht Hs Hn n. assert (Hp : 0 < n) by (apply np; auto).
  destruct (phi_ok text sa Hs Hn CCompressed Hp) as (phi & E & L & P & P0). cbv beta in *. fold n in L, P, P0.
  set (f := fun q => nth q phi 0).
  assert (F : isphi text sa f). { intros i Hi. unfold f. apply (nth_error_nth _ _ 0 (P i Hi)). }
  assert (HW : forall x, x < n -> cap (bits_of n) x = x) by (intros x Hx; apply cap_bits; auto; lia).
  destruct (plcp_loop_ok text sa Hs Ht Hn (bits_of n) f HW F (n - 1) 0 phi 0 0) as (a & Ea & La & A & A0); auto; try (fold n; lia).
  { intros q Hq. unfold f. apply nth_error_nth'. rewrite L. apply Hq. }
  cbv beta in *. fold n in Ea, La, A, A0.
  set (plcp := upd a (n - 1) 0).
  assert (Lp : length plcp = n) by (unfold plcp; rewrite upd_length; auto).
  assert (PV : forall q, q < n - 1 -> nth_error plcp q = Some (lcp_at text q (f q))).
  { intros q Hq. unfold plcp. rewrite nth_error_upd_ne by lia. auto. }
  assert (PL : nth_error plcp (n - 1) = Some 0) by (unfold plcp; apply nth_error_upd_eq; lia).
  assert (C : chain 0 plcp) by (apply (plcp_chain text sa f); auto).
  destruct (sada_bits_ok plcp) as (bs & Eb & Er); auto. { intros X. rewrite X in Lp. simpl in Lp. lia. }
  assert (S : forall j x, nth_error plcp j = Some x -> is_select true bs (j + 1) (x + 2 * j)) by (intros j x; apply sada_select; auto).
  assert (G : forall i x, i < n -> nth_error plcp (nth i sa 0) = Some x -> (n = 1 -> x = 0) -> sada_get sa bs i = Some x).
  { intros i x Hi Ex X1. unfold sada_get. rewrite (len_sa text sa Hs). fold n. destruct (n =? 1) eqn:Z; [rewrite X1 by lia; auto|].
    rewrite (sa_ne text sa Hs i Hi). cbn [obind]. rewrite (sel1_ok _ _ _ 0 (S _ _ Ex)). cbn [obind]. f_equal. lia. }
  exists phi, plcp, bs. split; auto. split.
  { unfold sada_plcp. fold n. rewrite Ea. cbn [obind fst]. rewrite put_ok by lia. rewrite HW by lia. auto. }
  split; auto. split; [|split].
  - apply G; auto. rewrite (first_is_last text sa Hs Ht). auto.
  - intros i Hi. apply G; try lia. rewrite PV by (apply sa_not_last; auto). f_equal. apply (phi_lcp text sa); auto.
  - assert (R : forall k it, it_idx it + k = n -> it_rank it = PropRankSelect.count true (firstn (64 * it_block it) bs) ->
      it_rank it <= it_idx it -> it_block it <= 1 + (length bs - 1) / 64 -> it_run k bs it = Some (skipn (it_idx it) plcp)).
    { induction k as [|k IH]; intros it Hk H1 H2 H3; cbn [it_run].
      - rewrite skipn_all2 by lia. auto.
      - assert (Hx : nth_error plcp (it_idx it) = Some (nth (it_idx it) plcp 0)) by (apply nth_error_nth'; lia).
        destruct (it_ok bs it (nth (it_idx it) plcp 0) _ (S _ _ Hx) eq_refl H1 H2 H3) as (it' & Ev & I1 & I2 & I3 & I4).
        rewrite Ev. cbn [obind snd fst]. rewrite IH; unfold it_advance; cbn [it_idx it_rank it_block]; try lia.
        rewrite I1. cbn [obind]. f_equal. rewrite (skipn_cons_nth plcp (it_idx it) 0) by lia. f_equal. f_equal. lia. }
    exists plcp. split; [|split; auto].
    + apply (R n (mk_it 0 0 0)); simpl; auto; lia.
    + intros i Hi. rewrite PV by (apply sa_not_last; auto). f_equal. apply (phi_lcp text sa); auto.
Qed.
Print Assumptions lcp_sada_correct.

(** non-vacuity: "banana" *)
Example companions_example : let text := [98;97;110;97;110;97;0]%N in let sa := [6;5;3;1;0;4;2] in
  terminated text /\ is_sa text sa /\ small text /\
  (exists phi plcp d, phi_new CCompressed sa = Some phi /\ plcp_new CCompressed text phi = Some (plcp, 3) /\
     lcp_new CCompressed sa plcp 3 = Some [0;0;1;3;0;0;2] /\ clcp_new plcp = Some d /\ clcp_get sa d 3 = Some 3) /\
  (exists d, sparse_new sa 2 = Some d /\ map (sparse_get d) sa = map Some (seq 0 7)).
Proof.
  cbv zeta. split; [exists [98;97;110;97;110;97]%N; split; auto; repeat constructor; discriminate|].
  split; [apply sa_checked; reflexivity|]. split; [reflexivity|]. split.
  - eexists. eexists. eexists. split; [vm_compute; reflexivity|]. split; [vm_compute; reflexivity|]. split; [vm_compute; reflexivity|].
    split; [vm_compute; reflexivity|vm_compute; reflexivity].
  - eexists. split; [vm_compute; reflexivity|vm_compute; reflexivity].
Qed.
