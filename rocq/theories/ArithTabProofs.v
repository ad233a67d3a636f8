(** Proofs about the arithmetic coder: build_intervals. *)
From Verif Require Import Base BitIO BitIOProofs IntCodes IntCodesProofs Coders CodersProofs LooseCoders Huffman HuffmanProofs SLEProofs
  Arith ArithSpec ArithProofs ArithRelProofs.
Local Open Scope N_scope.

Definition nsum (l : list N) : N := fold_right N.add 0 l.
Lemma nsum_cons x l : nsum (x :: l) = x + nsum l.
Proof. reflexivity. Qed.
Lemma nsum_app a b : nsum (a ++ b) = nsum a + nsum b.
Proof. induction a as [|x a IH]; cbn [nsum fold_right app]; [reflexivity|]. fold (nsum (a ++ b)) (nsum a). lia. Qed.
Fixpoint psum (p : N) (c : list N) : list N :=
  match c with [] => [] | x :: r => (x + p) :: psum (x + p) r end.
Lemma psum_firstn c : forall p, psum p c = map (fun i => p + nsum (firstn i c)) (seq 1 (length c)).
Proof.
  induction c as [|x r IH]; intros p; cbn [psum length seq map]; [reflexivity|]. f_equal.
  - cbn. lia.
  - rewrite IH, <- (seq_shift (length r) 1), map_map. apply map_ext. intros i. cbn [firstn nsum fold_right]. fold (nsum (firstn i r)). lia.
Qed.
Definition nz (x : N) : bool := negb (x =? 0).
Lemma filter_len_le {A} p (l : list A) : (length (filter p l) <= length l)%nat.
Proof. induction l as [|x l IH]; cbn [filter length]; [lia|]. destruct (p x); cbn [length]; lia. Qed.
Definition minnz (mn : N) (c : list N) : N := fold_left (fun m x => if x =? 0 then m else N.min m x) c mn.

Lemma ac_loop_ok c : forall prev cb mn, prev + nsum c < 4294967296 -> cb + N.of_nat (length (filter nz c)) < 256 ->
  ac_loop prev c cb mn = (psum prev c, cb + N.of_nat (length (filter nz c)), minnz mn c).
Proof.
  induction c as [|x r IH]; intros prev cb mn Hs Hc; cbn [ac_loop psum filter length minnz fold_left].
  - cbn. rewrite N.add_0_r. reflexivity.
  - cbn [nsum fold_right] in Hs. fold (nsum r) in Hs. cbn [filter] in Hc. unfold nz in *.
    assert (Ew : w32 (x + prev) = x + prev).
    { unfold w32. apply N.mod_small. change (2 ^ 32) with 4294967296. lia. }
    rewrite Ew. destruct (N.eqb_spec x 0) as [Hx|Hx]; cbn [negb length] in *.
    + rewrite IH by lia. reflexivity.
    + assert (E8 : w8 (cb + 1) = cb + 1) by (apply N.mod_small; lia). rewrite E8.
      rewrite IH by lia. f_equal. f_equal. lia.
Qed.
Lemma minnz_ok c : forall mn, (minnz mn c <= mn) /\ (forall x, In x c -> x <> 0 -> minnz mn c <= x) /\
  (minnz mn c = mn \/ In (minnz mn c) c /\ minnz mn c <> 0).
Proof.
  induction c as [|x r IH]; intros mn; cbn [minnz fold_left].
  - split; [lia|]. split; [intros x []|]. auto.
  - fold (minnz (if x =? 0 then mn else N.min mn x) r).
    destruct (IH (if x =? 0 then mn else N.min mn x)) as (H1 & H2 & H3).
    destruct (N.eqb_spec x 0) as [Hx|Hx].
    + split; auto. split.
      * intros y [<-|Hy] Hn; [congruence|auto].
      * destruct H3 as [H3|[H3 H4]]; [left; auto|right; split; [right; auto|auto]].
    + split; [lia|]. split.
      * intros y [<-|Hy] Hn; [lia|auto].
      * destruct H3 as [H3|[H3 H4]]; [|right; split; [right; auto|auto]].
        destruct (N.min_spec mn x) as [[_ E]|[_ E]]; rewrite E in H3; rewrite E; [left; auto|].
        right. rewrite H3. split; [left; auto|auto].
Qed.
Lemma div_step p x mn : 1 <= mn -> (x = 0 \/ mn <= x) -> (p / mn = (x + p) / mn <-> x = 0).
Proof.
  intros Hm Hx. split; [|intros ->; reflexivity]. intros E. destruct Hx as [|Hx]; auto. exfalso.
  assert ((p + 1 * mn) / mn <= (x + p) / mn) by (apply N.div_le_mono; lia).
  rewrite N.div_add in H by lia. lia.
Qed.
Lemma ctab_len mn : 1 <= mn -> forall c p i, (forall x, In x c -> x = 0 \/ mn <= x) ->
  length (ctab i (p / mn) (map (fun y => y / mn) (psum p c))) = length (filter nz c).
Proof.
  intros Hm. induction c as [|x r IH]; intros p i Hx; cbn [psum map ctab filter]; [reflexivity|].
  rewrite app_length, IH by (intros y Hy; apply Hx; right; auto).
  pose proof (div_step p x mn Hm (Hx x (or_introl eq_refl))) as D. unfold nz at 2.
  destruct (N.eqb_spec ((x + p) / mn) (p / mn)) as [E|E]; destruct (N.eqb_spec x 0) as [E0|E0]; cbn [negb length]; auto.
  - exfalso. apply E0. apply D. auto.
  - exfalso. apply E. symmetry. apply D. auto.
Qed.

(** counts *)
Lemma ac_count_eq lits : ac_count lits = count_literals lits.
Proof. reflexivity. Qed.
Definition cnts (a : list N) : list N := map (fun i => N.of_nat (occ a i)) (seq 0 256).
Lemma list_nth_map {A} (d : A) (l : list A) (f : nat -> A) : (forall i, (i < length l)%nat -> nth i l d = f i) -> l = map f (seq 0 (length l)).
Proof.
  intros H. apply (nth_ext _ _ d (f 0%nat)).
  - rewrite map_length, seq_length. reflexivity.
  - intros i Hi. rewrite H by auto. rewrite map_nth. rewrite seq_nth by auto. reflexivity.
Qed.
Lemma ac_count_cnts a : bytes_ok a -> N.of_nat (length a) < 4294967296 -> ac_count a = cnts a.
Proof.
  intros Hb Hl. rewrite ac_count_eq. destruct (count_ok a Hb Hl) as [H1 H2].
  unfold cnts. rewrite <- H1 at 1. apply list_nth_map with (d := 0). intros i Hi. apply H2. lia.
Qed.
Lemma nsum_cnts a : bytes_ok a -> nsum (cnts a) = N.of_nat (length a).
Proof.
  assert (A : forall f h l, nsum (map (fun i : nat => f i + h i) l) = nsum (map f l) + nsum (map h l)).
  { intros f h l. induction l as [|x l IH]; cbn [map]; [reflexivity|]. rewrite !nsum_cons. lia. }
  induction 1 as [|c a Hc Hb IH].
  - unfold cnts, occ. cbn [count_occ length]. assert (G : forall l : list nat, nsum (map (fun _ => N.of_nat 0) l) = 0); [|apply G].
    induction l as [|x l IH]; cbn [map]; [reflexivity|]. rewrite nsum_cons, IH. reflexivity.
  - assert (E : cnts (c :: a) = map (fun i => N.of_nat (occ a i) + (if N.of_nat i =? c then 1 else 0)) (seq 0 256)).
    { apply map_ext. intros i. unfold occ. cbn [count_occ]. destruct (N.eq_dec c (N.of_nat i)), (N.eqb_spec (N.of_nat i) c); try congruence; lia. }
    rewrite E, A. unfold cnts in IH. rewrite IH. cbn [length]. unfold byte_ok in Hc.
    assert (G : nsum (map (fun i => if N.of_nat i =? c then 1 else 0) (seq 0 256)) = 1); [|rewrite G; lia].
    assert (G : forall m k, nsum (map (fun i => if N.of_nat i =? c then 1 else 0) (seq k m)) =
                if (k <=? N.to_nat c)%nat && (N.to_nat c <? k + m)%nat then 1 else 0).
    { clear. induction m as [|m IH]; intros k; cbn [seq map]; rewrite ?nsum_cons.
      - destruct (Nat.leb_spec k (N.to_nat c)), (Nat.ltb_spec (N.to_nat c) (k + 0)); cbn; auto; lia.
      - rewrite IH.
        destruct (N.eqb_spec (N.of_nat k) c); destruct (Nat.leb_spec k (N.to_nat c)), (Nat.leb_spec (S k) (N.to_nat c)),
          (Nat.ltb_spec (N.to_nat c) (S k + m)), (Nat.ltb_spec (N.to_nat c) (k + S m)); cbn; auto; lia. }
    rewrite G. destruct (Nat.leb_spec 0 (N.to_nat c)), (Nat.ltb_spec (N.to_nat c) (0 + 256)); cbn; auto; lia.
Qed.
Lemma cnts_nth a i : (i < 256)%nat -> nth_error (cnts a) i = Some (N.of_nat (occ a i)).
Proof. intros H. unfold cnts. rewrite nth_error_map, (nth_error_nth' _ 0%nat) by (rewrite seq_length; auto). rewrite seq_nth by auto. reflexivity. Qed.
Lemma cnts_len a : length (cnts a) = 256%nat.
Proof. unfold cnts. rewrite map_length, seq_length. reflexivity. Qed.
Lemma firstn_S_nth {A} (l : list A) i x : nth_error l i = Some x -> firstn (S i) l = firstn i l ++ [x].
Proof.
  revert i. induction l as [|y l IH]; intros [|i] H; cbn in H; try discriminate.
  - injection H as ->. reflexivity.
  - cbn [firstn app]. f_equal. apply IH; auto.
Qed.
Lemma firstn_mono (l : list N) i j : (i <= j)%nat -> nsum (firstn i l) <= nsum (firstn j l).
Proof.
  revert i j. induction l as [|x l IH]; intros i j H.
  - rewrite !firstn_nil. lia.
  - destruct i as [|i]; [cbn; lia|]. destruct j as [|j]; [lia|]. cbn [firstn nsum fold_right].
    fold (nsum (firstn i l)) (nsum (firstn j l)). specialize (IH i j). lia.
Qed.

Lemma build_ok a : bytes_ok a -> arith_text a -> exists g T, let n := N.of_nat (length a) in
  (g 0%nat = 0 /\ (forall i j, (i <= j)%nat -> g i <= g j) /\ g 255%nat = T /\ g 256%nat = T /\
   1 <= T < 2147483648 /\ n < 4294967296 /\ N.of_nat (length (tab g)) < 256) /\
  build_intervals (ac_count a) = Some (enc0 g T n) /\ (forall v, In v a -> pres g v).
Proof.
  intros Hb (Hl & H255 & c0 & Hc1 & Hc2 & Hc3 & Hc4).
  change (2 ^ 32) with 4294967296 in Hl. change (2 ^ 31) with 2147483648 in Hc4.
  rewrite (ac_count_cnts a Hb Hl). set (n := N.of_nat (length a)) in *.
  set (mn := N.of_nat (freq a c0)) in *.
  assert (Hby : forall v, In v a -> v < 256) by (intros v Hv; unfold bytes_ok in Hb; rewrite Forall_forall in Hb; exact (Hb v Hv)).
  assert (Hocc : forall v, occ a (N.to_nat v) = freq a v) by (intros v; unfold occ, freq; rewrite N2Nat.id; reflexivity).
  assert (Hm : 1 <= mn).
  { unfold mn, freq. apply (count_occ_In N.eq_dec) in Hc1. lia. }
  assert (Hmn : mn <= n).
  { unfold mn, n, freq. pose proof (occ_le a (N.to_nat c0)) as L. rewrite Hocc in L. unfold freq in L. lia. }
  assert (Hcn : forall x, In x (cnts a) -> x = 0 \/ mn <= x).
  { intros x Hx. unfold cnts in Hx. apply in_map_iff in Hx. destruct Hx as (i & <- & Hi).
    destruct (occ a i) eqn:E; [left; reflexivity|right]. rewrite <- E. unfold mn, freq, occ.
    assert (In (N.of_nat i) a) by (apply (count_occ_In N.eq_dec); unfold occ in E; lia).
    specialize (Hc3 _ H). unfold freq in Hc3. lia. }
  assert (Elen := cnts_len a). assert (Esum := nsum_cnts a Hb). fold n in Esum.
  assert (E255 : occ a 255 = 0%nat).
  { unfold occ. apply count_occ_not_In. exact H255. }
  assert (Hf : (length (filter nz (cnts a)) <= 255)%nat).
  { assert (Es : cnts a = firstn 255 (cnts a) ++ [0]).
    { rewrite <- (firstn_all2 (n := 256) (cnts a)) at 1 by lia. apply firstn_S_nth. rewrite cnts_nth by lia. rewrite E255. reflexivity. }
    rewrite Es, filter_app. change (filter nz [0]) with (@nil N). rewrite app_nil_r.
    etransitivity; [apply filter_len_le|]. apply firstn_le_length. }
  (* build_intervals *)
  remember (cnts a) as C0 eqn:EC0. destruct C0 as [|x0 r]; [discriminate|].
  exists (fun i => nsum (firstn i (x0 :: r)) / mn), (n / mn). cbn zeta.
  assert (Hg : forall v, v < 256 -> nth_error (x0 :: r) (N.to_nat v) = Some (N.of_nat (freq a v))).
  { intros v Hv. rewrite EC0, cnts_nth by lia. rewrite Hocc. reflexivity. }
  assert (Emin : minnz 4294967295 r = mn).
  { destruct (minnz_ok r 4294967295) as (M1 & M2 & M3).
    assert (Hin : In mn r).
    { specialize (Hg c0 (Hby _ Hc1)). destruct (N.to_nat c0) as [|k] eqn:Ek; [lia|]. cbn in Hg.
      apply nth_error_In in Hg. exact Hg. }
    assert (minnz 4294967295 r <= mn) by (apply M2; [exact Hin|lia]).
    destruct M3 as [M3|[M3 M4]]; [lia|].
    destruct (Hcn (minnz 4294967295 r)) as [Hz|Hz]; [right; exact M3|congruence|lia]. }
  assert (EC : map (fun y => y / mn) (psum 0 (x0 :: r)) = C (fun i => nsum (firstn i (x0 :: r)) / mn)).
  { rewrite psum_firstn, map_map. rewrite Elen. unfold C. apply map_ext. intros i. rewrite N.add_0_l. reflexivity. }
  assert (Es255 : nsum (firstn 255 (x0 :: r)) = n /\ nsum (firstn 256 (x0 :: r)) = n).
  { assert (E1 : firstn 256 (x0 :: r) = firstn 255 (x0 :: r) ++ [0]).
    { apply firstn_S_nth. rewrite EC0, cnts_nth by lia. rewrite E255. reflexivity. }
    assert (E2 : nsum (firstn 256 (x0 :: r)) = n) by (rewrite firstn_all2 by lia; exact Esum).
    split; auto. rewrite <- E2, E1, nsum_app. change (nsum [0]) with 0. lia. }
  destruct Es255 as [Es1 Es2].
  assert (Etab : length (tab (fun i => nsum (firstn i (x0 :: r)) / mn)) = length (filter nz (x0 :: r))).
  { unfold tab. rewrite <- EC. rewrite <- (ctab_len mn Hm (x0 :: r) 0 0); auto. }
  split; [|split].
  - split; [cbn; apply N.div_0_l; lia|]. split; [intros i j Hij; apply N.div_le_mono; [lia|apply firstn_mono; auto]|].
    rewrite Es1, Es2. split; auto. split; auto. split; [|split; [auto|]].
    + split; [apply N.div_le_lower_bound; lia|]. exact Hc4.
    + rewrite Etab. lia.
  - unfold build_intervals, enc0. rewrite Etab.
    assert (Hxr : x0 + nsum r = n) by exact Esum.
    assert (Hfr : (if x0 =? 0 then 0 else 1) + N.of_nat (length (filter nz r)) = N.of_nat (length (filter nz (x0 :: r)))).
    { cbn [filter]. unfold nz at 2. destruct (x0 =? 0); cbn [negb length]; lia. }
    rewrite (ac_loop_ok r x0) by lia. rewrite Hfr.
    change (2 ^ 32 - 1) with 4294967295. rewrite Emin.
    assert (Ep : x0 :: psum x0 r = psum 0 (x0 :: r)) by (cbn [psum]; rewrite N.add_0_r; reflexivity).
    rewrite Ep, EC. do 2 f_equal.
    + rewrite psum_firstn, Elen. rewrite (nth_indep _ 0 (0 + nsum (firstn 0 (x0 :: r)))) by (rewrite map_length, seq_length; lia).
      rewrite (map_nth (fun i => 0 + nsum (firstn i (x0 :: r))) (seq 1 256) 0%nat 254). rewrite seq_nth by lia.
      rewrite N.add_0_l. exact Es1.
    + assert (Hn254 := nth_C (fun i => nsum (firstn i (x0 :: r)) / mn) 254 ltac:(lia)).
      apply (nth_error_nth _ _ 0) in Hn254. rewrite Hn254. rewrite Es1. reflexivity.
  - intros v Hv. split; [auto|]. cbn beta. rewrite (firstn_S_nth _ _ _ (Hg v (Hby v Hv))).
    rewrite nsum_app. cbn [nsum fold_right]. rewrite N.add_0_r.
    assert (mn <= N.of_nat (freq a v)) by (unfold mn; specialize (Hc3 v Hv); lia).
    assert ((nsum (firstn (N.to_nat v) (x0 :: r)) + 1 * mn) / mn <= (nsum (firstn (N.to_nat v) (x0 :: r)) + N.of_nat (freq a v)) / mn)
      by (apply N.div_le_mono; lia).
    rewrite N.div_add in H0 by lia. fold (nsum (firstn (N.to_nat v) (x0 :: r))). lia.
Qed.
