(** Proofs about SAComp.v: inverse, Phi, PLCP and LCP arrays. *)
From Verif Require Import Base IntCodes IntCodesProofs SASpec BWTProofs IntVec IntVecProofs RankSelect SAComp.
Local Open Scope nat_scope.

(** ** words *)
Lemma cap_id w x : (N.of_nat x < 2 ^ N.of_nat w)%N -> cap w x = x.
Proof. intros H. unfold cap. rewrite N.mod_small by auto. lia. Qed.
Lemma cap_bits n x : x <= n -> (N.of_nat n < 2 ^ 32)%N -> cap (bits_of n) x = x.
Proof.
  intros H Hn. apply cap_id. pose proof (bits_for_bound (N.of_nat n)). unfold bits_of.
  assert (N.of_nat x <= N.of_nat n)%N by lia. unfold bits_forn in *. lia.
Qed.
Lemma cap_fast x : (N.of_nat x < 2 ^ 32)%N -> cap fast_bits x = x.
Proof. intros H. apply cap_id. exact H. Qed.
Lemma cap_new cm n x : x <= n -> (N.of_nat n < 2 ^ 32)%N -> cap (new_width cm (bits_of n)) x = x.
Proof. intros H Hn. destruct cm; simpl; try (apply cap_bits; auto); apply cap_fast; lia. Qed.
Lemma cap_cap w x : cap w (cap w x) = cap w x.
Proof. unfold cap. rewrite N2Nat.id, N.mod_mod; auto. apply N.pow_nonzero. discriminate. Qed.

Lemma put_ok w a i x : i < length a -> put w a i x = Some (upd a i (cap w x)).
Proof. intros H. unfold put. replace (i <? length a) with true by lia. auto. Qed.
Lemma compress_nth w a i : nth_error (compress_to w a) i = option_map (cap w) (nth_error a i).
Proof. apply nth_error_map. Qed.
Lemma nth_error_upd {A} (a : list A) i j x : i < length a ->
  nth_error (upd a i x) j = if j =? i then Some x else nth_error a j.
Proof.
  intros H. destruct (j =? i) eqn:E.
  - apply Nat.eqb_eq in E. subst. apply nth_error_upd_eq; auto.
  - apply nth_error_upd_ne. lia.
Qed.

(** ** common prefixes *)
Lemma lexb_lcp1 a : forall b c, lexb a b = true -> lexb b c = true -> lcp_len a c <= lcp_len b c.
Proof.
  induction a as [|x a IH]; intros [|y b] [|z c] H1 H2; simpl in *; try lia; try discriminate.
  destruct (x =? z)%N eqn:E; [|lia]. apply N.eqb_eq in E. subst z.
  destruct (x <? y)%N eqn:L1; simpl in H1.
  - replace (y <? x)%N with false in H2 by lia. simpl in H2. apply andb_prop in H2. destruct H2. lia.
  - apply andb_prop in H1. destruct H1 as [E1 H1]. apply N.eqb_eq in E1. subst y.
    rewrite N.ltb_irrefl, N.eqb_refl in H2. simpl in H2. rewrite N.eqb_refl. apply le_n_S, IH; auto.
Qed.
Lemma lexb_lcp2 a : forall b c, lexb a b = true -> lexb b c = true -> lcp_len a c <= lcp_len a b.
Proof.
  induction a as [|x a IH]; intros [|y b] [|z c] H1 H2; simpl in *; try lia; try discriminate.
  destruct (x =? z)%N eqn:E; [|lia]. apply N.eqb_eq in E. subst z.
  destruct (x <? y)%N eqn:L1; simpl in H1.
  - replace (y <? x)%N with false in H2 by lia. simpl in H2. apply andb_prop in H2. destruct H2. lia.
  - apply andb_prop in H1. destruct H1 as [E1 H1]. apply N.eqb_eq in E1. subst y.
    rewrite N.ltb_irrefl, N.eqb_refl in H2. simpl in H2. rewrite N.eqb_refl. apply le_n_S, IH; auto.
Qed.
Lemma lexb_trans a : forall b c, lexb a b = true -> lexb b c = true -> lexb a c = true.
Proof.
  induction a as [|x a IH]; intros [|y b] [|z c] H1 H2; simpl in *; try discriminate; auto.
  destruct (x <? y)%N eqn:L1, (y <? z)%N eqn:L2; simpl in *.
  - replace (x <? z)%N with true by lia. auto.
  - apply andb_prop in H2. destruct H2 as [E H2]. apply N.eqb_eq in E. subst. rewrite L1. auto.
  - apply andb_prop in H1. destruct H1 as [E H1]. apply N.eqb_eq in E. subst. rewrite L2. auto.
  - apply andb_prop in H1, H2. destruct H1 as [E1 H1], H2 as [E2 H2]. apply N.eqb_eq in E1, E2. subst.
    rewrite N.eqb_refl, (IH _ _ H1 H2). apply orb_true_r.
Qed.
Lemma lcp_len_sym a : forall b, lcp_len a b = lcp_len b a.
Proof. induction a as [|x a IH]; intros [|y b]; simpl; auto. rewrite N.eqb_sym. destruct (y =? x)%N; auto. Qed.
Lemma lcp_len_nth a : forall b k, k < lcp_len a b -> nth_error a k = nth_error b k /\ nth_error a k <> None.
Proof.
  induction a as [|x a IH]; intros [|y b] k H; simpl in H; try lia. destruct (x =? y)%N eqn:E; [|lia].
  apply N.eqb_eq in E. subst. destruct k; simpl; [split; auto; discriminate|]. apply IH. lia.
Qed.
Lemma lcp_len_le a : forall b, lcp_len a b <= length a.
Proof. induction a as [|x a IH]; intros [|y b]; simpl; try lia. destruct (x =? y)%N; [|lia]. specialize (IH b). lia. Qed.
Lemma lcp_len_stop a : forall b x y, nth_error a (lcp_len a b) = Some x -> nth_error b (lcp_len a b) = Some y -> x <> y.
Proof.
  induction a as [|u a IH]; intros [|v b] x y H1 H2; simpl in *; try discriminate.
  destruct (u =? v)%N eqn:E; simpl in *; [apply (IH b x y); auto|]. injection H1 as <-. injection H2 as <-. lia.
Qed.
Lemma nth_error_skipn {A} (l : list A) i k : nth_error (skipn i l) k = nth_error l (i + k).
Proof. revert l; induction i; intros [|x l]; simpl; auto. destruct k; auto. Qed.

Fixpoint maxl (l : list nat) : nat := match l with [] => 0 | x :: r => Nat.max x (maxl r) end.
Lemma maxl_ge l x : In x l -> x <= maxl l.
Proof. induction l; simpl; intros []; subst; lia. Qed.
Lemma maxl_in l : l <> [] -> In (maxl l) l.
Proof.
  induction l as [|x l IH]; intros H; [congruence|]. simpl. destruct l as [|n0 l]; [left; simpl; lia|].
  destruct (Nat.max_dec x (maxl (n0 :: l))) as [E|E]; rewrite E; [left; auto|right; apply IH; discriminate].
Qed.
Lemma maxl_snoc l x : maxl (l ++ [x]) = Nat.max (maxl l) x.
Proof. induction l; simpl; lia. Qed.

Section SA.
  Variables (text : list N) (sa : list nat).
  Hypothesis Hsa : is_sa text sa.
  Let n := length text.
  Notation SA := (fun i => nth i sa 0).
  Lemma len_sa : length sa = n.
  Proof. apply (sa_len text); auto. Qed.
  Lemma sa_ne i : i < n -> nth_error sa i = Some (SA i).
  Proof. intros H. apply nth_error_nth'. rewrite len_sa. auto. Qed.
  Lemma sa_lt i : i < n -> SA i < n.
  Proof. intros. apply (sa_bound text sa); auto. Qed.
  Lemma sa_on p : p < n -> exists i, i < n /\ SA i = p.
  Proof. intros. apply (sa_surj text sa); auto. Qed.
  Lemma sa_inj i j : i < n -> j < n -> SA i = SA j -> i = j.
  Proof.
    intros Hi Hj E. assert (ND : NoDup sa).
    { apply (Permutation_NoDup (Permutation_sym (proj1 Hsa))), seq_NoDup. }
    rewrite (NoDup_nth sa 0) in ND. apply ND; auto; rewrite len_sa; auto.
  Qed.
  Hypothesis Ht : terminated text.
  Notation TX := (fun i => nth i text 0%N).
  Lemma np : 0 < n.
  Proof. clear Hsa. unfold n. destruct Ht as (b & -> & _). rewrite app_length. simpl. lia. Qed.
  Lemma tx_ne i : i < n -> nth_error text i = Some (TX i).
  Proof. intros. apply nth_error_nth'. auto. Qed.
  Lemma suf_cons p : p < n -> suffix text p = TX p :: suffix text (p + 1).
  Proof. intros. unfold suffix. rewrite (skipn_cons_nth text p 0%N) by auto. do 2 f_equal. lia. Qed.
  Lemma first_is_last : SA 0 = n - 1.
  Proof.
    pose proof np. destruct (sa_on (n - 1) ltac:(lia)) as (i & Hi & E).
    destruct (Nat.eq_dec i 0) as [->|Hne]; auto. exfalso.
    pose proof (proj2 Hsa 0 i ltac:(fold n; lia)) as G. cbv beta in E. rewrite E in G. unfold suf_lt in G.
    assert (S0 : SA 0 < n) by (apply sa_lt; lia).
    rewrite (suf_cons (SA 0)), (suf_cons (n - 1)) in G by lia. cbn [lexb] in G.
    assert (Z : nth (n - 1) text 0%N = 0%N) by apply (T_last text Ht). rewrite Z in G.
    rewrite (proj2 (N.ltb_ge _ 0%N)) in G by lia.
    simpl in G. apply andb_prop in G. destruct G as [G _]. apply N.eqb_eq in G.
    assert (SA 0 <> n - 1) by (rewrite <- E; intros X; apply sa_inj in X; lia).
    apply (T_pos text Ht (SA 0)); auto. fold n. lia.
  Qed.
  (** two different positions mismatch inside the text *)
  Lemma lcp_in i j : i < n -> j < n -> i <> j -> i + lcp_at text i j < n /\ j + lcp_at text i j < n.
  Proof.
    clear Hsa. intros Hi Hj Hne. pose proof np as Hp.
    assert (G : forall i j, i < j < n -> j + lcp_at text i j < n).
    { clear Hi Hj Hne i j. intros i j Hij. unfold lcp_at.
      destruct (Nat.le_gt_cases n (j + lcp_len (suffix text i) (suffix text j))); auto. exfalso.
      destruct (lcp_len_nth (suffix text i) (suffix text j) (n - 1 - j) ltac:(lia)) as [E _].
      unfold suffix in E. rewrite !nth_error_skipn in E. rewrite !tx_ne in E by lia. apply Some_inj in E.
      replace (j + (n - 1 - j)) with (n - 1) in E by lia.
      rewrite (T_last text Ht : TX (n - 1) = 0%N) in E.
      apply (T_pos text Ht (i + (n - 1 - j))); [fold n; lia|auto]. }
    destruct (Nat.lt_total i j) as [L|[L|L]]; try lia.
    - specialize (G i j ltac:(lia)). lia.
    - specialize (G j i ltac:(lia)). unfold lcp_at in *. rewrite lcp_len_sym. lia.
  Qed.
  Lemma extend_ok i j : i < n -> j < n -> i <> j -> forall fuel l, l <= lcp_at text i j -> lcp_at text i j - l < fuel ->
    extend fuel text i j l = Some (lcp_at text i j).
  Proof.
    clear Hsa. intros Hi Hj Hne. destruct (lcp_in i j Hi Hj Hne) as [B1 B2].
    induction fuel as [|f IH]; intros l Hl Hf; [lia|]. cbn [extend].
    rewrite !tx_ne by lia. cbn [obind]. destruct (_ =? _)%N eqn:E.
    - apply IH; [|]; apply N.eqb_eq in E; destruct (Nat.eq_dec l (lcp_at text i j)) as [->|]; try lia; exfalso;
      apply (lcp_len_stop (suffix text i) (suffix text j) (TX (i + lcp_at text i j)) (TX (j + lcp_at text i j))); auto;
      unfold suffix; rewrite nth_error_skipn; apply tx_ne; auto.
    - destruct (Nat.eq_dec l (lcp_at text i j)) as [->|Hne2]; auto. exfalso.
      destruct (lcp_len_nth (suffix text i) (suffix text j) l) as [F _]; [unfold lcp_at in *; lia|].
      unfold suffix in F. rewrite !nth_error_skipn in F. rewrite !tx_ne in F by lia. apply Some_inj in F. cbv beta in F. lia.
  Qed.
  Definition isphi (phi : nat -> nat) : Prop := forall i, 1 <= i < n -> phi (SA i) = SA (i - 1).
  Lemma phi_pred phi i : isphi phi -> i < n - 1 -> exists k, 1 <= k < n /\ SA k = i /\ phi i = SA (k - 1).
  Proof.
    intros F Hi. destruct (sa_on i ltac:(lia)) as (k & Hk & E). exists k. destruct k.
    - rewrite first_is_last in E. lia.
    - split; [lia|]. split; auto. rewrite <- E. apply F. lia.
  Qed.
  Lemma kasai phi i : isphi phi -> i + 1 < n - 1 ->
    lcp_at text i (phi i) <= lcp_at text (i + 1) (phi (i + 1)) + 1.
  Proof.
    intros F Hi. destruct (phi_pred phi i F ltac:(lia)) as (k & Hk & Ek & ->).
    destruct (phi_pred phi (i + 1) F ltac:(lia)) as (m & Hm & Em & ->).
    set (j := SA (k - 1)). assert (Hj : j < n) by (apply sa_lt; lia).
    assert (LT : suf_lt text j i = true) by (rewrite <- Ek; apply (proj2 Hsa); fold n; lia).
    unfold lcp_at. rewrite (suf_cons i), (suf_cons j) by lia. cbn [lcp_len].
    destruct (TX i =? TX j)%N eqn:E; [|lia]. apply N.eqb_eq in E.
    unfold suf_lt in LT. rewrite (suf_cons i), (suf_cons j) in LT by lia. cbn [lexb] in LT.
    rewrite E, N.ltb_irrefl, N.eqb_refl in LT. simpl in LT.
    assert (Hj1 : j + 1 < n).
    { destruct (Nat.eq_dec j (n - 1)) as [X|]; [|lia]. exfalso. rewrite X in E.
      rewrite (T_last text Ht : TX (n - 1) = 0%N) in E. apply (T_pos text Ht i); auto. fold n; lia. }
    destruct (sa_on (j + 1) Hj1) as (m' & Hm' & Em').
    assert (Hmm : m' < m).
    { destruct (Nat.lt_total m' m) as [L|[L|L]]; auto.
      - subst m'. rewrite Em in Em'. rewrite Em' in LT. rewrite lexb_irrefl in LT. discriminate.
      - pose proof (proj2 Hsa m m' ltac:(fold n; lia)) as G. cbv beta in *. rewrite Em, Em' in G. unfold suf_lt in G.
        apply lexb_asym in G. congruence. }
    rewrite <- Em, <- Em'. match goal with |- S ?a <= ?b + 1 => cut (a <= b); [lia|] end. rewrite (lcp_len_sym (suffix text (SA m))), (lcp_len_sym (suffix text (SA m))).
    destruct (Nat.eq_dec m' (m - 1)) as [->|Hne]; [lia|].
    transitivity (lcp_len (suffix text (SA (m - 1))) (suffix text (SA m))); [|lia].
    apply lexb_lcp1.
    - apply (proj2 Hsa). fold n. lia.
    - apply (proj2 Hsa). fold n. lia.
  Qed.
  Definition plcps (phi : nat -> nat) : list nat := map (fun q => lcp_at text q (phi q)) (seq 0 (n - 1)).
  Lemma plcp_lt phi q : isphi phi -> q < n - 1 -> lcp_at text q (phi q) <= maxl (plcps phi).
  Proof. intros F Hq. apply maxl_ge. unfold plcps. apply (in_map (fun q => lcp_at text q (phi q))). apply in_seq. lia. Qed.
  Lemma maxl_lt phi : isphi phi -> maxl (plcps phi) < n.
  Proof.
    intros F. pose proof np. destruct (plcps phi) eqn:E; [simpl; lia|].
    assert (X : In (maxl (plcps phi)) (plcps phi)) by (apply maxl_in; rewrite E; discriminate).
    rewrite <- E. unfold plcps in X at 2. apply in_map_iff in X. destruct X as (q & <- & Hq). apply in_seq in Hq.
    destruct (phi_pred phi q F ltac:(lia)) as (m & Hm & Em & Ep).
    destruct (lcp_in q (phi q)); try lia; [rewrite Ep; apply sa_lt; lia|].
    rewrite <- Em at 1. rewrite Ep. intros X. apply sa_inj in X; lia.
  Qed.
  Hypothesis Hn : (N.of_nat n < 2 ^ 32)%N.

  (** inverse *)
  Lemma isa_loop_ok w k : (forall x, x < n -> cap w x = x) -> forall i a, i + k = n -> length a = n ->
    exists a', isa_loop w sa a i k = Some a' /\ length a' = n /\
      (forall j, i <= j < n -> nth_error a' (SA j) = Some j) /\
      (forall q, (forall j, i <= j < n -> SA j <> q) -> nth_error a' q = nth_error a q).
  Proof.
    intros Hw. induction k as [|k IH]; intros i a Hk Ha; cbn [isa_loop].
    - exists a. split; auto. split; auto. split; auto. intros; lia.
    - rewrite sa_ne by lia. cbn [obind]. rewrite put_ok by (rewrite Ha; apply sa_lt; lia). cbn [obind]. rewrite Hw by lia.
      destruct (IH (i + 1) (upd a (SA i) i)) as (a' & E & L & P & Q); try lia; [rewrite upd_length; auto|].
      exists a'. split; auto. split; auto. split.
      + intros j Hj. destruct (Nat.eq_dec j i) as [->|Hne]; [|apply P; lia].
        rewrite Q; [apply nth_error_upd_eq; rewrite Ha; apply sa_lt; lia|]. intros j' Hj' F. apply sa_inj in F; lia.
      + intros q Hq. rewrite Q by (intros; apply Hq; lia). apply nth_error_upd_ne. apply Hq. lia.
  Qed.
  Lemma isa_ok cm : exists isa, isa_new cm sa = Some isa /\ length isa = n /\
    forall i, i < n -> nth_error isa (SA i) = Some i.
  Proof.
    unfold isa_new. rewrite len_sa.
    destruct (isa_loop_ok (new_width cm (bits_of n)) n) with (i := 0) (a := repeat 0 n) as (a & E & L & P & _); auto.
    - intros. apply cap_new; auto. lia.
    - apply repeat_length.
    - rewrite E. cbn [obind]. eexists. split; auto. split; [destruct cm; auto; unfold compress_to; rewrite map_length; auto|].
      intros i Hi. destruct cm; try (apply P; lia). rewrite compress_nth, P by lia. simpl. f_equal. apply cap_bits; auto. lia.
  Qed.

  (** Phi *)
  Lemma phi_loop_ok w k : (forall x, x < n -> cap w x = x) -> forall i a, 1 <= i -> i + k = n -> length a = n ->
    exists a', phi_loop w sa a i (SA (i - 1)) k = Some a' /\ length a' = n /\
      (forall j, i <= j < n -> nth_error a' (SA j) = Some (SA (j - 1))) /\
      (forall q, (forall j, i <= j < n -> SA j <> q) -> nth_error a' q = nth_error a q).
  Proof.
    intros Hw. induction k as [|k IH]; intros i a Hi Hk Ha; cbn [phi_loop].
    - exists a. split; auto. split; auto. split; auto. intros; lia.
    - rewrite sa_ne by lia. cbn [obind]. rewrite put_ok by (rewrite Ha; apply sa_lt; lia). cbn [obind].
      rewrite Hw by (apply sa_lt; lia).
      destruct (IH (i + 1) (upd a (SA i) (SA (i - 1)))) as (a' & E & L & P & Q); try lia; [rewrite upd_length; auto|].
      replace (i + 1 - 1) with i in E by lia.
      exists a'. split; auto. split; auto. split.
      + intros j Hj. destruct (Nat.eq_dec j i) as [->|Hne]; [|apply P; lia].
        rewrite Q; [apply nth_error_upd_eq; rewrite Ha; apply sa_lt; lia|]. intros j' Hj' F. apply sa_inj in F; lia.
      + intros q Hq. rewrite Q by (intros; apply Hq; lia). apply nth_error_upd_ne. apply Hq. lia.
  Qed.
  Lemma phi_ok cm : 0 < n -> exists phi, phi_new cm sa = Some phi /\ length phi = n /\
    (forall i, 1 <= i < n -> nth_error phi (SA i) = Some (SA (i - 1))) /\
    nth_error phi (SA 0) = Some (SA (n - 1)).
  Proof.
    intros Hp. unfold phi_new. rewrite len_sa. rewrite sa_ne by lia. cbn [obind].
    destruct (phi_loop_ok (new_width cm (bits_of n)) (n - 1)) with (i := 1) (a := repeat 0 n) as (a & E & L & P & Q); try lia.
    - intros. apply cap_new; auto. lia.
    - apply repeat_length.
    - replace (1 - 1) with 0 in E by auto. rewrite E. cbn [obind].
      assert (S0 : SA 0 < n) by (apply sa_lt; lia).
      rewrite sa_ne by lia. cbn [obind]. rewrite put_ok by lia. cbn [obind].
      assert (SL : SA (n - 1) < n) by (apply sa_lt; lia).
      rewrite cap_new by (auto; lia).
      assert (A : forall i, 1 <= i < n -> nth_error (upd a (SA 0) (SA (n - 1))) (SA i) = Some (SA (i - 1))).
      { intros i Hi. rewrite nth_error_upd_ne; [apply P; lia|]. intros F. apply sa_inj in F; lia. }
      assert (B : nth_error (upd a (SA 0) (SA (n - 1))) (SA 0) = Some (SA (n - 1))) by (apply nth_error_upd_eq; lia).
      eexists. split; auto. split; [destruct cm; unfold compress_to; rewrite ?map_length, upd_length; auto|]. split.
      + intros i Hi. destruct cm; auto. rewrite compress_nth, A by auto. simpl. f_equal. apply cap_bits; auto.
        assert (SA (i - 1) < n) by (apply sa_lt; lia). lia.
      + destruct cm; auto. rewrite compress_nth, B by auto. simpl. f_equal. apply cap_bits; auto. lia.
  Qed.

  (** PLCP *)
  Lemma plcp_loop_ok w phi : (forall x, x < n -> cap w x = x) -> isphi phi -> forall k i a l mx,
    i + k = n - 1 -> length a = n ->
    (forall q, i <= q < n -> nth_error a q = Some (phi q)) ->
    (forall q, q < i -> nth_error a q = Some (lcp_at text q (phi q))) ->
    (0 < k -> l <= lcp_at text i (phi i)) ->
    mx = maxl (map (fun q => lcp_at text q (phi q)) (seq 0 i)) ->
    exists a', plcp_loop w text a i l mx k = Some (a', maxl (map (fun q => lcp_at text q (phi q)) (seq 0 (n - 1)))) /\
      length a' = n /\ (forall q, q < n - 1 -> nth_error a' q = Some (lcp_at text q (phi q))) /\
      nth_error a' (n - 1) = Some (phi (n - 1)).
  Proof.
    intros Hw F. induction k as [|k IH]; intros i a l mx Hk Ha P Q Hl Hm; cbn [plcp_loop].
    - replace i with (n - 1) in * by lia. exists a. split; [rewrite <- Hm; auto|]. split; auto. split; auto. apply P. pose proof np. lia.
    - rewrite P by lia. cbn [obind]. destruct (phi_pred phi i F ltac:(lia)) as (m & Hmn & Em & Ep).
      assert (Hphi : phi i < n) by (rewrite Ep; apply sa_lt; lia).
      assert (Hne : i <> phi i). { rewrite <- Em at 1. rewrite Ep. intros X. apply sa_inj in X; lia. }
      destruct (lcp_in i (phi i) ltac:(lia) Hphi Hne) as [B1 B2].
      rewrite (extend_ok i (phi i)) by (auto; try lia; fold n; lia). cbn [obind].
      rewrite put_ok by lia. cbn [obind]. rewrite Hw by lia.
      apply IH; try lia.
      + rewrite upd_length. auto.
      + intros q Hq. rewrite nth_error_upd_ne by lia. apply P. lia.
      + intros q Hq. destruct (Nat.eq_dec q i) as [->|]; [apply nth_error_upd_eq; lia|]. rewrite nth_error_upd_ne by lia. apply Q. lia.
      + intros Hk'. pose proof (kasai phi i F ltac:(lia)). lia.
      + replace (i + 1) with (S i) by lia. rewrite seq_S, map_app. cbn [map]. rewrite maxl_snoc, <- Hm. reflexivity.
  Qed.
  Lemma plcp_ok cm : exists phi plcp f, phi_new cm sa = Some phi /\ isphi f /\ f (n - 1) = SA (n - 1) /\
    plcp_new cm text phi = Some (plcp, maxl (plcps f)) /\ length plcp = n /\
    (forall q, q < n - 1 -> nth_error plcp q = Some (lcp_at text q (f q))) /\
    nth_error plcp (n - 1) = Some (match cm with CPlain => SA (n - 1) | _ => cap (bits_of (maxl (plcps f))) (SA (n - 1)) end).
  Proof.
    destruct (phi_ok cm np) as (phi & E & L & P & P0). exists phi.
    set (f := fun q => nth q phi 0).
    assert (F : isphi f). { intros i Hi. unfold f. apply (nth_error_nth _ _ 0 (P i Hi)). }
    assert (FL : f (n - 1) = SA (n - 1)). { unfold f. rewrite <- first_is_last at 1. apply (nth_error_nth _ _ 0 P0). }
    set (w := match cm with CPlain => fast_bits | _ => bits_of n end).
    assert (HW : forall x, x < n -> cap w x = x).
    { intros x Hx. unfold w. destruct cm; [apply cap_fast; lia|apply cap_bits; auto; lia|apply cap_bits; auto; lia]. }
    destruct (plcp_loop_ok w f HW F (n - 1) 0 phi 0 0) as (a & Ea & La & A & A0); auto; try lia.
    - intros q Hq. unfold f. apply nth_error_nth'. lia.
    - rewrite FL in A0.
      exists (match cm with CPlain => a | _ => compress_to (bits_of (maxl (plcps f))) a end), f.
      split; auto. split; auto. split; auto. split.
      { unfold plcp_new. fold n. fold w. rewrite Ea. cbn [obind]. unfold plcps. destruct cm; auto. }
      split. { destruct cm; auto; unfold compress_to; rewrite map_length; auto. }
      assert (M : (N.of_nat (maxl (plcps f)) < 2 ^ 32)%N) by (pose proof (maxl_lt f F); lia).
      split.
      + intros q Hq. destruct cm; auto; rewrite compress_nth, A by auto; simpl; f_equal; apply cap_bits; auto; apply plcp_lt; auto.
      + destruct cm; auto; rewrite compress_nth, A0 by auto; reflexivity.
  Qed.

  (** LCP *)
  Lemma lcp_loop_ok w plcp val k : (forall i, 1 <= i < n -> nth_error plcp (SA i) = Some (val i) /\ cap w (val i) = val i) ->
    forall i a, 1 <= i -> i + k = n -> length a = n ->
    exists a', lcp_loop w sa plcp a i k = Some a' /\ length a' = n /\
      (forall q, q < i -> nth_error a' q = nth_error a q) /\ (forall q, i <= q < n -> nth_error a' q = Some (val q)).
  Proof.
    intros Hv. induction k as [|k IH]; intros i a Hi Hk Ha; cbn [lcp_loop].
    - exists a. split; auto. split; auto. split; auto. intros; lia.
    - rewrite sa_ne by lia. cbn [obind]. destruct (Hv i ltac:(lia)) as [E C]. rewrite E. cbn [obind]. rewrite put_ok by lia. cbn [obind].
      rewrite C. destruct (IH (i + 1) (upd a i (val i))) as (a' & E' & L & P & Q); try lia; [rewrite upd_length; auto|].
      exists a'. split; auto. split; auto. split.
      + intros q Hq. rewrite P by lia. apply nth_error_upd_ne. lia.
      + intros q Hq. destruct (Nat.eq_dec q i) as [->|]; [|apply Q; lia]. rewrite P by lia. apply nth_error_upd_eq. lia.
  Qed.
  Lemma lcp_ok cm plcp mx : (forall i, 1 <= i < n -> nth_error plcp (SA i) = Some (lcp_at text (SA (i - 1)) (SA i)) /\
      lcp_at text (SA (i - 1)) (SA i) <= mx) -> mx < n ->
    exists lcp, lcp_new cm sa plcp mx = Some lcp /\ length lcp = n /\ nth_error lcp 0 = Some 0 /\
      forall i, 1 <= i < n -> nth_error lcp i = Some (lcp_at text (SA (i - 1)) (SA i)).
  Proof.
    intros H Hm. pose proof np. unfold lcp_new. rewrite len_sa. set (w := new_width cm (bits_of mx)).
    assert (HW : forall x, x <= mx -> cap w x = x).
    { intros x Hx. apply cap_new; auto. lia. }
    rewrite put_ok by (rewrite repeat_length; auto). cbn [obind]. rewrite HW by lia.
    destruct (lcp_loop_ok w plcp (fun i => lcp_at text (SA (i - 1)) (SA i)) (n - 1)) with (i := 1) (a := upd (repeat 0 n) 0 0) as (a & E & L & P & Q); try lia.
    - intros i Hi. destruct (H i Hi). split; auto.
    - rewrite upd_length, repeat_length. auto.
    - rewrite E. cbn [obind]. eexists. split; auto. split; [destruct cm; auto; unfold compress_to; rewrite map_length; auto|].
      assert (P0 : nth_error a 0 = Some 0). { rewrite P by lia. apply nth_error_upd_eq. rewrite repeat_length. auto. }
      split.
      + destruct cm; auto. rewrite compress_nth, P0. reflexivity.
      + intros i Hi. destruct cm; auto. rewrite compress_nth, Q by lia. cbn [option_map]. f_equal. apply cap_bits; [|lia]. apply H; auto.
  Qed.
End SA.
