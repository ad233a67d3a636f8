(** The wavelet tree coding gives its list back. *)
From Verif Require Import Base BitIO BitIOProofs IntCodes IntCodesProofs Esp EspProofs SlpSort SlpSortProofs SlpCoderProofs DCodings DCodingsProofs Succinct SubseqSpec SuccinctProofs WtCoding.

(** ** counting by a key *)
Section Keyed.
  Context {A : Type} (key : A -> nat).
  Definition cls (p : nat) (l : list A) : list A := filter (fun x => key x =? p) l.
  Lemma cls_app p a b : cls p (a ++ b) = cls p a ++ cls p b.
  Proof. apply filter_app. Qed.
  Lemma cls_one p x : cls p [x] = if key x =? p then [x] else [].
  Proof. reflexivity. Qed.
  Definition cnts (m : nat) (l : list A) : list nat := map (fun p => length (cls p l)) (seq 0 m).
  Definition offs (p : nat) (l : list A) : nat := list_sum (cnts p l).
  Lemma offs_S p l : offs (S p) l = offs p l + length (cls p l).
  Proof. unfold offs, cnts. rewrite seq_S, map_app, list_sum_app. cbn [map list_sum fold_right plus]. lia. Qed.
  Lemma cnts_length m l : length (cnts m l) = m.
  Proof. unfold cnts. rewrite map_length, seq_length. reflexivity. Qed.
  Lemma cnts_nth m l p : p < m -> nth_error (cnts m l) p = Some (length (cls p l)).
  Proof. intros H. unfold cnts. rewrite nth_error_map, nth_error_nth' with (d := 0) by (rewrite seq_length; auto). rewrite seq_nth by auto. reflexivity. Qed.
  Lemma prefix_sums_seq f : forall m a acc, prefix_sums acc (map f (seq a m)) = map (fun p => acc + list_sum (map f (seq a (p - a)))) (seq a m).
  Proof.
    induction m as [|m IH]; intros a acc; cbn [seq map prefix_sums]; [reflexivity|]. rewrite Nat.sub_diag. cbn [seq map list_sum fold_right].
    f_equal; [unfold list_sum; cbn; lia|]. rewrite IH. apply map_ext_in. intros p Hp. apply in_seq in Hp. destruct (p - a) as [|k] eqn:E; [lia|].
    replace (p - S a) with k by lia. cbn [seq map list_sum fold_right]. unfold list_sum. cbn [fold_right]. lia.
  Qed.
  Lemma prefix_sums_cnts m l : prefix_sums 0 (cnts m l) = map (fun p => offs p l) (seq 0 m).
  Proof. unfold cnts. rewrite prefix_sums_seq. apply map_ext. intros p. rewrite Nat.sub_0_r. reflexivity. Qed.
  Lemma offs_total m : forall l, Forall (fun x => key x < m) l -> offs m l = length l.
  Proof.
    assert (G : forall (n : nat) p, offs p (@nil A) = 0). { intros _ p. induction p as [|p IH]; [reflexivity|]. rewrite offs_S, IH. reflexivity. }
    assert (C : forall x l p, offs p (x :: l) = offs p l + (if key x <? p then 1 else 0)).
    { intros x l. induction p as [|p IH]; [reflexivity|]. rewrite !offs_S, IH. unfold cls. cbn [filter]. destruct (Nat.eqb_spec (key x) p) as [E|E]; cbn [length].
      - destruct (Nat.ltb_spec (key x) p), (Nat.ltb_spec (key x) (S p)); lia.
      - destruct (Nat.ltb_spec (key x) p), (Nat.ltb_spec (key x) (S p)); lia. }
    induction 1 as [|x l H HF IH]; [apply (G 0)|]. rewrite C, IH. destruct (Nat.ltb_spec (key x) m); cbn [length]; lia.
  Qed.
End Keyed.
Lemma flat_map_length_offs {A B} (key : A -> nat) (g : nat -> list B) l m : (forall p, p < m -> length (g p) = length (cls key p l)) ->
  length (flat_map g (seq 0 m)) = offs key m l.
Proof.
  induction m as [|m IH]; intros H; [reflexivity|]. rewrite seq_S, flat_map_app, app_length, offs_S. cbn [flat_map plus]. rewrite app_nil_r.
  rewrite IH by auto. rewrite H by lia. reflexivity.
Qed.
Lemma seq_split m p : p < m -> seq 0 m = seq 0 p ++ p :: seq (S p) (m - S p).
Proof.
  intros H. replace m with (p + S (m - S p)) at 1 by lia. rewrite seq_app. reflexivity.
Qed.

Lemma upd_mid {A} (a : list A) w y t c x k : k = length a + length w -> upd (a ++ (w ++ y :: t) ++ c) k x = a ++ (w ++ x :: t) ++ c.
Proof.
  intros ->. induction a as [|z a IH]; cbn [length plus app upd]; [|f_equal; exact IH].
  induction w as [|z w IH]; cbn [length app upd]; [reflexivity|]. f_equal. exact IH.
Qed.
Lemma nth_mid {A} (a : list A) w y t c k : k = length a + length w -> nth_error (a ++ (w ++ y :: t) ++ c) k = Some y.
Proof.
  intros ->. rewrite nth_error_app2 by lia. replace (length a + length w - length a) with (length w) by lia.
  rewrite <- app_assoc. rewrite nth_error_app2 by lia. rewrite Nat.sub_diag. reflexivity.
Qed.

Lemma upd_map_seq (f g : nat -> nat) m p y : p < m -> g p = y -> (forall q, q <> p -> g q = f q) -> upd (map f (seq 0 m)) p y = map g (seq 0 m).
Proof.
  intros Hp Hy Hq. rewrite (seq_split m p Hp), !map_app. cbn [map].
  pose proof (@upd_mid nat (map f (seq 0 p)) [] (f p) [] (map f (seq (S p) (m - S p))) y p) as H. cbn [app length] in H.
  rewrite H by (rewrite map_length, seq_length; lia). rewrite Hy. f_equal; [|f_equal].
  - apply map_ext_in. intros q H'. apply in_seq in H'. symmetry. apply Hq. lia.
  - apply map_ext_in. intros q H'. apply in_seq in H'. symmetry. apply Hq. lia.
Qed.

(** ** one level *)
Definition wbits (key : N -> nat) (bit : N -> bool) (m : nat) (v : list N) : list bool := flat_map (fun p => map bit (cls key p v)) (seq 0 m).
Section Place.
  Variables (ps m : nat) (v : list N).
  Let key (x : N) := N.to_nat (N.shiftr x (N.of_nat ps)).
  Let bit (x : N) := N.testbit x (N.of_nat (ps - 1)).
  Let seg (done : list N) (p : nat) := map bit (cls key p done) ++ repeat false (length (cls key p v) - length (cls key p done)).
  Lemma wt_place_ok : Forall (fun x => key x < m) v -> forall rest done, done ++ rest = v ->
    wt_place ps rest (map (fun p => offs key p v + length (cls key p done)) (seq 0 m)) (flat_map (seg done) (seq 0 m)) = Some (wbits key bit m v).
  Proof.
    intros HF. induction rest as [|x rest IH]; intros done E; cbn [wt_place].
    - rewrite app_nil_r in E. subst done. f_equal. unfold wbits. apply flat_map_ext. intros p. unfold seg. rewrite Nat.sub_diag. apply app_nil_r.
    - fold (key x). fold (bit x). set (p := key x).
      assert (Hp : p < m). { rewrite Forall_forall in HF. apply HF. rewrite <- E. apply in_or_app. right. left. auto. }
      rewrite nth_error_map, (nth_error_nth' _ 0) by (rewrite seq_length; auto). rewrite seq_nth by auto. cbn [plus option_map obind].
      assert (Lc : forall q, length (cls key q v) = length (cls key q done) + (if p =? q then 1 else 0) + length (cls key q rest)).
      { intros q. rewrite <- E. change (x :: rest) with ([x] ++ rest). rewrite !cls_app, !app_length, cls_one. fold p. destruct (p =? q); cbn [length]; lia. }
      assert (Ls : forall q, q < m -> length (seg done q) = length (cls key q v)).
      { intros q Hq. unfold seg. rewrite app_length, map_length, repeat_length. specialize (Lc q). lia. }
      set (t := repeat false (length (cls key p rest))).
      assert (Es : seg done p = map bit (cls key p done) ++ false :: t).
      { unfold seg, t. rewrite (Lc p), Nat.eqb_refl. replace (_ - _) with (S (length (cls key p rest))) by lia. reflexivity. }
      assert (La : length (flat_map (seg done) (seq 0 p)) = offs key p v) by (apply flat_map_length_offs; intros; apply Ls; lia).
      rewrite (seq_split m p Hp), flat_map_app. cbn [flat_map]. rewrite Es.
      assert (Ek : offs key p v + length (cls key p done) = length (flat_map (seg done) (seq 0 p)) + length (map bit (cls key p done)))
        by (rewrite map_length; lia).
      rewrite (nth_mid _ _ _ _ _ _ Ek). cbn [obind orb]. rewrite (upd_mid _ _ _ _ _ _ _ Ek).
      rewrite <- (seq_split m p Hp). rewrite <- (IH (done ++ [x])) by (rewrite <- app_assoc; exact E). f_equal.
      + apply upd_map_seq; [auto| |].
        * rewrite cls_app, app_length, cls_one. fold p. rewrite Nat.eqb_refl. cbn [length]. lia.
        * intros q Hq. rewrite cls_app, app_length, cls_one. fold p. destruct (Nat.eqb_spec p q); [congruence|]. cbn [length]. lia.
      + assert (Hseg : forall q, q <> p -> seg (done ++ [x]) q = seg done q).
        { intros q Hq. unfold seg. rewrite cls_app, cls_one. fold p. destruct (Nat.eqb_spec p q); [congruence|]. rewrite app_nil_r. reflexivity. }
        rewrite (seq_split m p Hp), flat_map_app. cbn [flat_map]. f_equal; [|f_equal].
        * rewrite !flat_map_concat_map. f_equal. apply map_ext_in. intros q Hq. apply in_seq in Hq. symmetry. apply Hseg. lia.
        * unfold seg. rewrite cls_app, cls_one. fold p. rewrite Nat.eqb_refl, map_app, app_length. cbn [map length]. rewrite <- app_assoc. cbn [app]. f_equal. f_equal.
          unfold t. f_equal. rewrite (Lc p), Nat.eqb_refl. lia.
        * rewrite !flat_map_concat_map. f_equal. apply map_ext_in. intros q Hq. apply in_seq in Hq. symmetry. apply Hseg. lia.
  Qed.
  Lemma wt_place_all : Forall (fun x => key x < m) v ->
    wt_place ps v (prefix_sums 0 (cnts key m v)) (repeat false (length v)) = Some (wbits key bit m v).
  Proof.
    intros HF. rewrite <- (wt_place_ok HF v []) by reflexivity. f_equal.
    - rewrite prefix_sums_cnts. apply map_ext. intros p. cbn. lia.
    - unfold seg. cbn [cls filter map app length]. rewrite <- (offs_total key m v HF). clear. induction m as [|k IH]; [reflexivity|].
      rewrite seq_S, flat_map_app, offs_S, repeat_app, IH. cbn [flat_map plus]. rewrite app_nil_r, Nat.sub_0_r. reflexivity.
  Qed.
End Place.

Lemma wt_hist_ok m : forall rest done, Forall (fun x => N.to_nat x < m) rest ->
  wt_hist rest (cnts N.to_nat m done) = Some (cnts N.to_nat m (done ++ rest)).
Proof.
  induction rest as [|x rest IH]; intros done HF; cbn [wt_hist]; [rewrite app_nil_r; reflexivity|]. inversion HF; subst.
  rewrite cnts_nth by auto. cbn [obind]. replace (done ++ x :: rest) with ((done ++ [x]) ++ rest) by (rewrite <- app_assoc; reflexivity).
  rewrite <- IH by auto. f_equal. unfold cnts. apply upd_map_seq; auto.
  - rewrite cls_app, app_length, cls_one, Nat.eqb_refl. cbn [length]. lia.
  - intros q Hq. rewrite cls_app, app_length, cls_one. destruct (Nat.eqb_spec (N.to_nat x) q); [congruence|]. cbn [length]. lia.
Qed.
Lemma halve_cnts (k1 k2 : N -> nat) m v : (forall x, k2 x = k1 x / 2) -> halve (cnts k1 (2 * m) v) = cnts k2 m v.
Proof.
  intros Hk. assert (G : forall m a, halve (map (fun p => length (cls k1 p v)) (seq (2 * a) (2 * m))) = map (fun p => length (cls k2 p v)) (seq a m)).
  { clear m. induction m as [|m IH]; intros a; [reflexivity|]. replace (2 * S m) with (S (S (2 * m))) by lia. cbn [seq map halve]. f_equal.
    - clear -Hk. induction v as [|x v IH]; [reflexivity|]. unfold cls in *. cbn [filter]. rewrite Hk.
      pose proof (Nat.div_mod_eq (k1 x) 2). pose proof (Nat.mod_upper_bound (k1 x) 2 ltac:(lia)).
      destruct (Nat.eqb_spec (k1 x) (2 * a)), (Nat.eqb_spec (k1 x) (S (2 * a))), (Nat.eqb_spec (k1 x / 2) a); cbn [length]; lia.
    - replace (S (S (2 * a))) with (2 * S a) by lia. apply IH. }
  unfold cnts. exact (G m 0).
Qed.

(** ** all levels *)
Section Levels.
  Variables (d : nat) (v : list N).
  Hypothesis Hd : 1 <= d.
  Hypothesis HF : Forall (fun x => x < 2 ^ N.of_nat d)%N v.
  Definition pre (k : nat) (x : N) : nat := N.to_nat (N.shiftr x (N.of_nat (d - k))).
  Definition bitk (k : nat) (x : N) : bool := N.testbit x (N.of_nat (d - k - 1)).
  Definition lev (k : nat) : list bool := wbits (pre k) (bitk k) (2 ^ k) v.

  Lemma pre_lt k x : k <= d -> (x < 2 ^ N.of_nat d)%N -> pre k x < 2 ^ k.
  Proof.
    intros Hk Hx. unfold pre. rewrite N.shiftr_div_pow2. enough (x / 2 ^ N.of_nat (d - k) < N.of_nat (2 ^ k))%N by lia. rewrite Nat2N.inj_pow.
    apply N.div_lt_upper_bound; [apply N.pow_nonzero; discriminate|]. change (N.of_nat 2) with 2%N. rewrite <- N.pow_add_r.
    replace (N.of_nat (d - k) + N.of_nat k)%N with (N.of_nat d) by lia. auto.
  Qed.
  Lemma pre_bounds k : k <= d -> Forall (fun x => pre k x < 2 ^ k) v.
  Proof. intros Hk. eapply Forall_impl; [|exact HF]. cbn. intros x Hx. apply pre_lt; auto. Qed.
  Lemma pre_S k x : k < d -> pre (S k) x = 2 * pre k x + (if bitk k x then 1 else 0).
  Proof.
    clear Hd HF. intros Hk. unfold pre, bitk. replace (d - k) with (S (d - S k)) by lia. rewrite Nat2N.inj_succ, <- N.add_1_r, <- N.shiftr_shiftr.
    replace (S (d - S k) - 1) with (d - S k) by lia. set (y := N.shiftr x (N.of_nat (d - S k))).
    assert (Eb : N.testbit x (N.of_nat (d - S k)) = N.testbit y 0) by (unfold y; rewrite N.shiftr_spec by lia; reflexivity).
    rewrite Eb, N.bit0_odd. pose proof (N.div2_odd y) as H. rewrite N.div2_spec in H.
    apply (f_equal N.to_nat) in H. destruct (N.odd y); cbn [N.b2n] in H; lia.
  Qed.
  Lemma pre_half k x : k < d -> pre k x = pre (S k) x / 2.
  Proof.
    intros Hk. rewrite pre_S by auto. destruct (bitk k x).
    - rewrite Nat.add_comm, (Nat.mul_comm 2), Nat.div_add by lia. reflexivity.
    - rewrite Nat.add_0_r, (Nat.mul_comm 2), Nat.div_mul by lia. reflexivity.
  Qed.
  Lemma pre_0 x : (x < 2 ^ N.of_nat d)%N -> pre 0 x = 0.
  Proof. intros Hx. pose proof (pre_lt 0 x ltac:(lia) Hx). cbn in H. lia. Qed.
  Lemma pre_d x : pre d x = N.to_nat x.
  Proof. unfold pre. rewrite Nat.sub_diag. reflexivity. Qed.

  Lemma wt_rest_ok : forall l, l < d -> wt_rest d l (cnts (pre (S l)) (2 ^ S l) v) v = Some (map lev (seq 1 l)).
  Proof.
    induction l as [|l IH]; intros Hl; [reflexivity|]. cbn [wt_rest].
    change (2 ^ S (S l)) with (2 * 2 ^ S l). rewrite (halve_cnts (pre (S (S l))) (pre (S l))) by (intros; apply pre_half; lia).
    pose proof (wt_place_all (d - S l) (2 ^ S l) v) as H. cbv zeta in H. specialize (H (pre_bounds (S l) ltac:(lia))).
    fold (pre (S l)) in H. change (cnts (fun x => N.to_nat (N.shiftr x (N.of_nat (d - S l)))) (2 ^ S l) v) with (cnts (pre (S l)) (2 ^ S l) v) in H.
    rewrite H. cbn [obind]. rewrite IH by lia. cbn [obind]. rewrite seq_S, map_app. reflexivity.
  Qed.
  Lemma cls_all k p : (forall x, In x v -> pre k x = p) -> cls (pre k) p v = v.
  Proof.
    intros H. unfold cls. clear HF. induction v as [|x l IH]; [reflexivity|]. cbn [filter]. rewrite (H x) by (left; auto). rewrite Nat.eqb_refl.
    f_equal. apply IH. intros; apply H; right; auto.
  Qed.
  Lemma lev_0 : lev 0 = map (fun x => N.testbit x (N.of_nat (d - 1))) v.
  Proof.
    unfold lev, wbits. cbn [Nat.pow seq flat_map]. rewrite app_nil_r, cls_all.
    - apply map_ext. intros x. unfold bitk. rewrite Nat.sub_0_r. reflexivity.
    - intros x Hx. rewrite Forall_forall in HF. apply pre_0. auto.
  Qed.
  Lemma make_wt_ok mx : N.size_nat mx = d -> d <= 30 -> make_wt v mx = Some (map lev (seq 0 d)).
  Proof.
    intros E H30. unfold make_wt. rewrite E. destruct (Nat.eqb_spec d 0); [lia|]. destruct (Nat.ltb_spec 30 d); [lia|].
    assert (E0 : repeat 0 (2 ^ d) = cnts N.to_nat (2 ^ d) []).
    { unfold cnts. cbn [cls filter length]. generalize (2 ^ d) as m. intros m. rewrite <- (seq_length m 0) at 1. induction (seq 0 m) as [|y t IH]; cbn [length repeat map]; [auto|]. f_equal. exact IH. }
    rewrite E0, (wt_hist_ok (2 ^ d) v []).
    - cbn [app obind]. assert (Ec : cnts N.to_nat (2 ^ d) v = cnts (pre (S (d - 1))) (2 ^ S (d - 1)) v).
      { replace (S (d - 1)) with d by lia. unfold cnts. apply map_ext. intros p. f_equal. unfold cls. apply filter_ext. intros x. rewrite pre_d. reflexivity. }
      rewrite Ec, wt_rest_ok by lia. cbn [obind]. assert (Es : seq 0 d = 0 :: seq 1 (d - 1)) by (destruct d as [|d']; [lia|]; cbn [seq]; rewrite Nat.sub_succ, Nat.sub_0_r; reflexivity).
      rewrite Es. cbn [map]. rewrite lev_0. reflexivity.
    - eapply Forall_impl; [|exact (pre_bounds d (le_n d))]. cbn. intros x. rewrite pre_d. auto.
  Qed.

  (** *** the decoder *)
  Lemma split_sizes_ok (g : nat -> list bool) : forall m a, split_sizes (flat_map g (seq a m)) (map (fun p => length (g p)) (seq a m)) =
    flat_map (fun p => [length (filter negb (g p)); length (filter (fun b => b) (g p))]) (seq a m).
  Proof.
    induction m as [|m IH]; intros a; [reflexivity|]. cbn [seq flat_map map split_sizes].
    rewrite firstn_app, firstn_all, Nat.sub_diag, skipn_app, skipn_all, Nat.sub_diag. cbn [firstn skipn app]. rewrite app_nil_r, IH. reflexivity.
  Qed.
  Lemma split_lev k : k < d -> split_sizes (lev k) (cnts (pre k) (2 ^ k) v) = cnts (pre (S k)) (2 ^ S k) v.
  Proof.
    intros Hk. unfold lev, wbits, cnts.
    rewrite (map_ext (fun p => length (cls (pre k) p v)) (fun p => length (map (bitk k) (cls (pre k) p v)))) by (intros; rewrite map_length; reflexivity).
    rewrite split_sizes_ok. change (2 ^ S k) with (2 * 2 ^ k). generalize (2 ^ k) as m. intros m.
    assert (G : forall a, flat_map (fun p => [length (filter negb (map (bitk k) (cls (pre k) p v))); length (filter (fun b => b) (map (bitk k) (cls (pre k) p v)))]) (seq a m)
      = map (fun p => length (cls (pre (S k)) p v)) (seq (2 * a) (2 * m))); [|exact (G 0)].
    induction m as [|m IH]; intros a; [reflexivity|]. replace (2 * S m) with (S (S (2 * m))) by lia. cbn [seq map flat_map app]. f_equal; [|f_equal].
    - clear - Hk. induction v as [|x l IH]; [reflexivity|]. unfold cls in *. cbn [filter]. rewrite (pre_S k x Hk).
      destruct (bitk k x) eqn:Eb; destruct (Nat.eqb_spec (pre k x) a); cbn [map filter]; rewrite ?Eb; cbn [negb length].
      + destruct (Nat.eqb_spec (2 * pre k x + 1) (2 * a)); [lia|]. exact IH.
      + destruct (Nat.eqb_spec (2 * pre k x + 1) (2 * a)); [lia|]. exact IH.
      + destruct (Nat.eqb_spec (2 * pre k x + 0) (2 * a)); [|lia]. cbn [length]. rewrite IH. reflexivity.
      + destruct (Nat.eqb_spec (2 * pre k x + 0) (2 * a)); [lia|]. exact IH.
    - clear - Hk. induction v as [|x l IH]; [reflexivity|]. unfold cls in *. cbn [filter]. rewrite (pre_S k x Hk).
      destruct (bitk k x) eqn:Eb; destruct (Nat.eqb_spec (pre k x) a); cbn [map filter]; rewrite ?Eb; cbn [negb length].
      + destruct (Nat.eqb_spec (2 * pre k x + 1) (S (2 * a))); [|lia]. cbn [length]. rewrite IH. reflexivity.
      + destruct (Nat.eqb_spec (2 * pre k x + 1) (S (2 * a))); [lia|]. exact IH.
      + destruct (Nat.eqb_spec (2 * pre k x + 0) (S (2 * a))); [lia|]. exact IH.
      + destruct (Nat.eqb_spec (2 * pre k x + 0) (S (2 * a))); [lia|]. exact IH.
    - replace (S (S (2 * a))) with (2 * S a) by lia. apply IH.
  Qed.
  Lemma node_sizes_cons bv bv2 r sizes : node_sizes (bv :: bv2 :: r) sizes = sizes :: node_sizes (bv2 :: r) (split_sizes bv sizes).
  Proof. reflexivity. Qed.
  Lemma node_sizes_ok : forall r k, 1 <= r -> k + r <= d -> node_sizes (map lev (seq k r)) (cnts (pre k) (2 ^ k) v) = map (fun k => cnts (pre k) (2 ^ k) v) (seq k r).
  Proof.
    induction r as [|r IH]; intros k Hr Hk; [lia|]. destruct r as [|r]; [reflexivity|].
    change (map lev (seq k (S (S r)))) with (lev k :: lev (S k) :: map lev (seq (S (S k)) r)). rewrite node_sizes_cons.
    rewrite split_lev by lia. change (lev (S k) :: map lev (seq (S (S k)) r)) with (map lev (seq (S k) (S r))). rewrite IH by lia. reflexivity.
  Qed.

  Definition st (done : list N) (k : nat) : list nat := map (fun p => offs (pre k) p v + length (cls (pre k) p done)) (seq 0 (2 ^ k)).
  Definition mixed (done : list N) (x : N) (k : nat) : list nat := flat_map (fun j => st (if j <? k then done ++ [x] else done) j) (seq 0 d).
  Lemma sts_length (f : nat -> list N) k : length (flat_map (fun j => st (f j) j) (seq 0 k)) = 2 ^ k - 1.
  Proof.
    induction k as [|k IH]; [reflexivity|]. rewrite seq_S, flat_map_app, app_length, IH. cbn [flat_map plus]. rewrite app_nil_r. unfold st. rewrite map_length, seq_length.
    cbn [Nat.pow]. pose proof (Nat.pow_nonzero 2 k). lia.
  Qed.
  Lemma lev_bit k done x rest : k < d -> v = done ++ x :: rest ->
    nth_error (lev k) (offs (pre k) (pre k x) v + length (cls (pre k) (pre k x) done)) = Some (bitk k x).
  Proof.
    intros Hk E. set (p := pre k x). assert (Hp : p < 2 ^ k). { pose proof (pre_bounds k ltac:(lia)) as H. rewrite Forall_forall in H. apply H. rewrite E. apply in_or_app. right. left. auto. }
    unfold lev, wbits. rewrite (seq_split _ p Hp), flat_map_app. cbn [flat_map].
    assert (Ec : map (bitk k) (cls (pre k) p v) = map (bitk k) (cls (pre k) p done) ++ bitk k x :: map (bitk k) (cls (pre k) p rest)).
    { rewrite E. change (x :: rest) with ([x] ++ rest). rewrite !cls_app, cls_one. fold p. rewrite Nat.eqb_refl, !map_app. reflexivity. }
    rewrite Ec. apply nth_mid. rewrite map_length. f_equal. symmetry. apply flat_map_length_offs. intros; apply map_length.
  Qed.
  Lemma wt_next_cons bv bv2 r starts idx mn mx : wt_next (bv :: bv2 :: r) starts idx mn mx =
    do st <- nth_error starts idx; do bit <- nth_error bv st;
    let mid := ((mx - mn) / 2 + mn)%N in
    if bit then wt_next (bv2 :: r) (upd starts idx (S st)) (2 * idx + 2) mid mx else wt_next (bv2 :: r) (upd starts idx (S st)) (2 * idx + 1) mn mid.
  Proof. reflexivity. Qed.
  Lemma mixed_nth done x k : k < d -> (x < 2 ^ N.of_nat d)%N ->
    nth_error (mixed done x k) (2 ^ k - 1 + pre k x) = Some (offs (pre k) (pre k x) v + length (cls (pre k) (pre k x) done)).
  Proof.
    intros Hk Hx. pose proof (pre_lt k x ltac:(lia) Hx) as Hp. unfold mixed. rewrite (seq_split d k Hk), flat_map_app. cbn [flat_map].
    rewrite nth_error_app2 by (rewrite (sts_length (fun j => if j <? k then done ++ [x] else done)); lia).
    rewrite (sts_length (fun j => if j <? k then done ++ [x] else done)). rewrite nth_error_app1 by (unfold st; rewrite map_length, seq_length; lia).
    replace (2 ^ k - 1 + pre k x - (2 ^ k - 1)) with (pre k x) by lia. rewrite Nat.ltb_irrefl. unfold st.
    rewrite nth_error_map, (nth_error_nth' _ 0) by (rewrite seq_length; auto). rewrite seq_nth by auto. reflexivity.
  Qed.
  Lemma mixed_upd done x k : k < d -> (x < 2 ^ N.of_nat d)%N ->
    upd (mixed done x k) (2 ^ k - 1 + pre k x) (S (offs (pre k) (pre k x) v + length (cls (pre k) (pre k x) done))) = mixed done x (S k).
  Proof.
    intros Hk Hx. pose proof (pre_lt k x ltac:(lia) Hx) as Hp. unfold mixed. rewrite !(seq_split d k Hk), !flat_map_app. cbn [flat_map].
    assert (G : forall (a b c : list nat) i y, i < length b -> upd (a ++ b ++ c) (length a + i) y = a ++ upd b i y ++ c).
    { clear. induction a as [|z a IH]; intros b c i y Hi; cbn [app length plus upd]; [|f_equal; auto].
      revert i Hi. induction b as [|z b IH]; intros [|i] Hi; cbn in *; try lia; auto. f_equal. apply IH. lia. }
    rewrite <- (sts_length (fun j => if j <? k then done ++ [x] else done) k) at 1. rewrite G by (unfold st; rewrite map_length, seq_length; auto).
    rewrite Nat.ltb_irrefl. destruct (Nat.ltb_spec k (S k)); [|lia]. f_equal; [|f_equal].
    - rewrite !flat_map_concat_map. f_equal. apply map_ext_in. intros j Hj. apply in_seq in Hj. destruct (Nat.ltb_spec j k), (Nat.ltb_spec j (S k)); auto; lia.
    - unfold st. apply upd_map_seq; auto.
      + rewrite cls_app, app_length, cls_one, Nat.eqb_refl. cbn [length]. lia.
      + intros q Hq. rewrite cls_app, app_length, cls_one. destruct (Nat.eqb_spec (pre k x) q); [congruence|]. cbn [length]. lia.
    - rewrite !flat_map_concat_map. f_equal. apply map_ext_in. intros j Hj. apply in_seq in Hj. destruct (Nat.ltb_spec j k), (Nat.ltb_spec j (S k)); auto; lia.
  Qed.
  Lemma wt_next_ok done x rest : v = done ++ x :: rest -> forall r k, k + S r = d ->
    wt_next (map lev (seq k (S r))) (mixed done x k) (2 ^ k - 1 + pre k x) (N.of_nat (pre k x) * 2 ^ N.of_nat (S r)) ((N.of_nat (pre k x) + 1) * 2 ^ N.of_nat (S r))
    = Some (x, mixed done x d).
  Proof.
    intros E. assert (Hx : (x < 2 ^ N.of_nat d)%N). { rewrite Forall_forall in HF. apply HF. rewrite E. apply in_or_app. right. left. auto. }
    induction r as [|r IH]; intros k Hk.
    - cbn [seq map wt_next]. rewrite mixed_nth by (auto; lia). cbn [obind]. rewrite (lev_bit k done x rest) by (auto; lia). cbn [obind].
      rewrite mixed_upd by (auto; lia). replace (S k) with d by lia. f_equal. f_equal.
      pose proof (pre_S k x ltac:(lia)) as Hs. replace (S k) with d in Hs by lia. rewrite pre_d in Hs. change (2 ^ N.of_nat 1)%N with 2%N.
      destruct (bitk k x); lia.
    - change (map lev (seq k (S (S r)))) with (lev k :: lev (S k) :: map lev (seq (S (S k)) r)). rewrite wt_next_cons.
      rewrite mixed_nth by (auto; lia). cbn [obind]. rewrite (lev_bit k done x rest) by (auto; lia). cbn [obind]. cbv zeta.
      rewrite mixed_upd by (auto; lia). change (lev (S k) :: map lev (seq (S (S k)) r)) with (map lev (seq (S k) (S r))).
      specialize (IH (S k) ltac:(lia)). pose proof (pre_S k x ltac:(lia)) as Hs. rewrite Hs in IH.
      pose proof (Nat.pow_nonzero 2 k ltac:(lia)) as Hnz.
      set (P := N.of_nat (pre k x)) in *. assert (E2 : (2 ^ N.of_nat (S (S r)) = 2 * 2 ^ N.of_nat (S r))%N) by (rewrite (Nat2N.inj_succ (S r)), N.pow_succ_r'; reflexivity).
      rewrite E2. set (w := (2 ^ N.of_nat (S r))%N) in *.
      replace ((((P + 1) * (2 * w) - P * (2 * w)) / 2 + P * (2 * w)))%N with ((2 * P + 1) * w)%N.
      2: { replace ((P + 1) * (2 * w) - P * (2 * w))%N with (w * 2)%N by lia. rewrite N.div_mul by discriminate. lia. }
      cbn [Nat.pow] in IH. destruct (bitk k x).
      + replace (2 * (2 ^ k - 1 + pre k x) + 2) with (2 ^ k + (2 ^ k + 0) - 1 + (2 * pre k x + 1)) by lia.
        replace (N.of_nat (2 * pre k x + 1)) with (2 * P + 1)%N in IH by lia. replace ((P + 1) * (2 * w))%N with ((2 * P + 1 + 1) * w)%N by lia. exact IH.
      + replace (2 * (2 ^ k - 1 + pre k x) + 1) with (2 ^ k + (2 ^ k + 0) - 1 + (2 * pre k x + 0)) by lia.
        replace (N.of_nat (2 * pre k x + 0)) with (2 * P)%N in IH by lia. replace (P * (2 * w))%N with (2 * P * w)%N by lia. exact IH.
  Qed.
  Lemma wt_all_ok : forall rest done, v = done ++ rest ->
    wt_all (length rest) (map lev (seq 0 d)) (flat_map (st done) (seq 0 d)) (2 ^ N.of_nat d) = Some rest.
  Proof.
    induction rest as [|x rest IH]; intros done E; [reflexivity|]. cbn [length wt_all].
    assert (Hx : (x < 2 ^ N.of_nat d)%N). { rewrite Forall_forall in HF. apply HF. rewrite E. apply in_or_app. right. left. auto. }
    pose proof (wt_next_ok done x rest E (d - 1) 0 ltac:(lia)) as H. rewrite (pre_0 x Hx) in H. replace (S (d - 1)) with d in H by lia.
    cbn [Nat.pow Nat.sub plus N.of_nat] in H. rewrite N.mul_0_l, N.add_0_l, N.mul_1_l in H. change (mixed done x 0) with (flat_map (st done) (seq 0 d)) in H.
    rewrite H. cbn [obind].
    assert (Em : mixed done x d = flat_map (st (done ++ [x])) (seq 0 d)).
    { unfold mixed. rewrite !flat_map_concat_map. f_equal. apply map_ext_in. intros j Hj. apply in_seq in Hj. destruct (Nat.ltb_spec j d); [auto|lia]. }
    rewrite Em, IH by (rewrite <- app_assoc; exact E). reflexivity.
  Qed.
  Lemma recover_dxx_ok : recover_dxx (map lev (seq 0 d)) (length v) = Some v.
  Proof.
    unfold recover_dxx. destruct (map lev (seq 0 d)) as [|b bs] eqn:Eb; [apply (f_equal (@length _)) in Eb; rewrite map_length, seq_length in Eb; cbn in Eb; lia|].
    rewrite <- Eb. assert (E0 : [length v] = cnts (pre 0) (2 ^ 0) v).
    { unfold cnts. cbn [Nat.pow seq map]. rewrite cls_all; [reflexivity|]. intros x Hx. rewrite Forall_forall in HF. apply pre_0. auto. }
    rewrite E0, node_sizes_ok by lia.
    assert (El : last (map (fun k => cnts (pre k) (2 ^ k) v) (seq 0 d)) [] = cnts (pre (d - 1)) (2 ^ (d - 1)) v).
    { assert (Es : seq 0 d = seq 0 (d - 1) ++ [d - 1]) by (replace d with (S (d - 1)) at 1 by lia; apply seq_S). rewrite Es, map_app. cbn [map]. apply last_last. }
    rewrite El, cnts_length. replace (N.of_nat (2 ^ (d - 1) * 2)) with (2 ^ N.of_nat d)%N.
    2: { rewrite Nat2N.inj_mul, Nat2N.inj_pow. change (N.of_nat 2) with 2%N. rewrite <- N.pow_succ_r' || rewrite N.mul_comm, <- N.pow_succ_r'. f_equal. lia. }
    assert (Es : concat (map (prefix_sums 0) (map (fun k => cnts (pre k) (2 ^ k) v) (seq 0 d))) = flat_map (st []) (seq 0 d)).
    { rewrite map_map, flat_map_concat_map. f_equal. apply map_ext. intros k. rewrite prefix_sums_cnts. unfold st. apply map_ext. intros p. cbn. lia. }
    rewrite Es. apply (wt_all_ok v []). reflexivity.
  Qed.
  Lemma lev_length k : k < d -> length (lev k) = length v.
  Proof. intros Hk. unfold lev, wbits. rewrite (flat_map_length_offs (pre k) _ v) by (intros; apply map_length). apply offs_total, pre_bounds. lia. Qed.
End Levels.

Lemma read_levels_ok n : forall bvs s rest, Forall (fun bv => length bv = n) bvs -> bisR s (concat bvs ++ rest) ->
  exists s', read_levels (length bvs) n s = (bvs, s') /\ bisR s' rest.
Proof.
  induction bvs as [|bv bvs IH]; intros s rest HF HR; [exists s; auto|]. inversion HF as [|? ? Hb HF']; subst. cbn [concat] in HR. rewrite <- app_assoc in HR.
  destruct (read_bools_ok bv s _ HR) as (s1 & E1 & HR1). cbn [length read_levels]. rewrite E1. destruct (IH s1 rest HF' HR1) as (s2 & E2 & HR2). rewrite E2. eauto.
Qed.

Lemma size_nat_bound mx K : (0 < mx < 2 ^ N.of_nat K)%N -> 1 <= N.size_nat mx <= K /\ (mx < 2 ^ N.of_nat (N.size_nat mx))%N.
Proof.
  intros [H0 H]. assert (Es : N.of_nat (N.size_nat mx) = N.size mx) by (destruct mx as [|p]; [reflexivity|]; cbn [N.size_nat N.size]; clear; induction p as [p IH|p IH|]; cbn [Pos.size_nat Pos.size]; [rewrite Nat2N.inj_succ, IH; reflexivity|rewrite Nat2N.inj_succ, IH; reflexivity|reflexivity]).
  rewrite Es. pose proof (N.size_gt mx) as Hs. split; [|auto]. rewrite N.size_log2 in Es by lia.
  assert (N.log2 mx < N.of_nat K)%N by (apply N.log2_lt_pow2; lia). lia.
Qed.
Theorem d_wavelet_dx : dx_ok (2 ^ 30) d_wavelet.
Proof.
  intros l mx Hne Hl Hmx HF. unfold dc_rt. cbn [dc_enc dc_dec d_wavelet].
  assert (G : exists bvs, make_wt l mx = Some bvs /\ length bvs <= 30 /\ Forall (fun bv => length bv = length l) bvs /\ recover_dxx bvs (length l) = Some l).
  { destruct (N.eq_dec mx 0) as [->|H0].
    - exists []. split; [reflexivity|]. split; [cbn; lia|]. split; [constructor|]. cbn [recover_dxx]. f_equal. clear - HF. induction HF as [|x l Hx HF IH]; cbn; [auto|].
      f_equal; [lia|auto].
    - destruct (size_nat_bound mx 30) as [Hd Hb]; [change (N.of_nat 30) with 30%N; lia|]. set (d := N.size_nat mx) in *.
      assert (HF' : Forall (fun x => x < 2 ^ N.of_nat d)%N l) by (eapply Forall_impl; [|exact HF]; cbn; intros; lia).
      exists (map (lev d l) (seq 0 d)). split; [apply make_wt_ok; auto; lia|]. split; [rewrite map_length, seq_length; lia|]. split.
      + apply Forall_map, Forall_forall. intros k Hk. apply in_seq in Hk. apply lev_length; auto; lia.
      + apply recover_dxx_ok; auto; lia. }
  destruct G as (bvs & E1 & L30 & L & E2). rewrite E1. cbn [obind].
  assert (Hc : exists c, write_cint (N.of_nat (length bvs)) 7 = Some c).
  { destruct (rcint_bis (N.of_nat (length bvs)) 7 [] (bis_open [])) as (c & E & _); [lia|lia|eauto]. }
  destruct Hc as (c & Ec). rewrite Ec. cbn [obind]. eexists. split; [reflexivity|]. intros s fuel HR Hf. rewrite app_length in Hf.
  destruct (rcint_bis (N.of_nat (length bvs)) 7 (concat bvs) s) as (c' & Ec' & Hrd); [lia|lia|]. rewrite Ec in Ec'. apply Some_inj in Ec'. subst c'.
  destruct (Hrd fuel) as (s1 & R1 & HR1); [lia|auto|]. rewrite R1. cbn [obind]. rewrite Nat2N.id.
  rewrite <- (app_nil_r (concat bvs)) in HR1. destruct (read_levels_ok (length l) bvs s1 [] L HR1) as (s2 & R2 & _). rewrite R2, E2. cbn [obind]. eauto.
Qed.
