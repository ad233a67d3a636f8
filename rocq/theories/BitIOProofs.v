From Verif Require Import Base BitIO.

(** ** Specification: which bits a byte file contains. *)
Definition byte_bits (b : N) : list bool :=
  map (N.testbit b) [7; 6; 5; 4; 3; 2; 1; 0]%N.

Fixpoint file_bits (f : list N) : list bool :=
  match f with
  | [] => []
  | b :: r =>
      match r with
      | [] => firstn (N.to_nat (N.land b 7)) (byte_bits b)
      | [c] => if (6 <=? N.land c 7)%N
               then firstn (N.to_nat (N.land c 7)) (byte_bits b)
               else byte_bits b ++ file_bits r
      | _ => byte_bits b ++ file_bits r
      end
  end.

(** bits [hi], [hi-1], ..., of [b], [n] of them *)
Fixpoint bits_down (b : N) (hi n : nat) : list bool :=
  match n with
  | O => []
  | S n => N.testbit b (N.of_nat hi) :: bits_down b (hi - 1) n
  end.

Lemma bits_down_firstn b n : n <= 8 -> bits_down b 7 n = firstn n (byte_bits b).
Proof.
  intros H. do 9 (destruct n as [|n]; [reflexivity|]). lia.
Qed.

(** remaining bits of a reader state *)
Definition bis_rem (s : bis) : list bool :=
  if bi_final s then bits_down (bi_cur s) (bi_cursor s) (bi_cursor s - (7 - N.to_nat (bi_fbits s)))
  else bits_down (bi_cur s) (bi_cursor s) (S (bi_cursor s)) ++ file_bits (bi_next s :: bi_rest s).

Definition bis_inv (s : bis) : Prop :=
  bi_cursor s <= 7 /\ (bi_final s = true -> (bi_fbits s <= 7)%N).

Lemma land7_le b : (N.land b 7 <= 7)%N.
Proof. change 7%N with (N.ones 3). rewrite N.land_ones. assert (b mod 2^3 < 2^3)%N by (apply N.mod_lt; discriminate). change (2^3)%N with 8%N in *. change (N.ones 3) with 7%N. lia. Qed.

Lemma read_next_ok s :
  bi_final s = false ->
  bis_inv (bis_read_next s) /\ bis_rem (bis_read_next s) = file_bits (bi_next s :: bi_rest s).
Proof.
  intros Hf. unfold bis_read_next.
  destruct (bi_rest s) as [|c rest] eqn:Hr.
  - pose proof (land7_le (bi_next s)) as L.
    split; [split; cbn [bi_cursor bi_final bi_fbits]; auto; lia|].
    unfold bis_rem; cbn [bi_cursor bi_final bi_fbits bi_cur file_bits].
    replace (7 - (7 - N.to_nat (N.land (bi_next s) 7))) with (N.to_nat (N.land (bi_next s) 7)) by lia.
    apply bits_down_firstn; lia.
  - pose proof (land7_le c) as L.
    destruct rest as [|d rest].
    + destruct (N.leb_spec 6 (N.land c 7)) as [H6|H6].
      * split; [split; cbn [bi_cursor bi_final bi_fbits]; auto; lia|].
        unfold bis_rem; cbn [bi_cursor bi_final bi_fbits bi_cur file_bits].
        destruct (N.leb_spec 6 (N.land c 7)); [|lia].
        replace (7 - (7 - N.to_nat (N.land c 7))) with (N.to_nat (N.land c 7)) by lia.
        apply bits_down_firstn; lia.
      * split; [split; cbn [bi_cursor bi_final bi_fbits]; auto; intros; lia|].
        unfold bis_rem; cbn [bi_cursor bi_final bi_fbits bi_cur file_bits bi_next bi_rest].
        rewrite Hf. destruct (N.leb_spec 6 (N.land c 7)); [lia|].
        rewrite bits_down_firstn by lia. reflexivity.
    + split; [split; cbn [bi_cursor bi_final bi_fbits]; auto; congruence|].
      unfold bis_rem; cbn [bi_cursor bi_final bi_fbits bi_cur bi_next bi_rest].
      rewrite Hf. rewrite bits_down_firstn by lia. reflexivity.
Qed.

Lemma open_ok f : bis_inv (bis_open f) /\ bis_rem (bis_open f) = file_bits f.
Proof.
  destruct f as [|c rest].
  - split; [split; cbn; auto; lia | reflexivity].
  - unfold bis_open. apply (read_next_ok (mk_bis rest 0 c false 0 0)). reflexivity.
Qed.

Lemma eof_spec s : bis_inv s -> bis_eof s = true <-> bis_rem s = [].
Proof.
  intros [H1 H2]. unfold bis_eof, bis_rem. destruct (bi_final s) eqn:E; cbn [andb].
  - rewrite Nat.leb_le. split; intros H.
    + replace (bi_cursor s - (7 - N.to_nat (bi_fbits s))) with 0 by lia. reflexivity.
    + destruct (bi_cursor s - (7 - N.to_nat (bi_fbits s))) eqn:D; [lia|].
      cbn [bits_down] in H; discriminate.
  - split; [discriminate|]. intros H. cbn [bits_down app] in H. discriminate.
Qed.

Lemma read_bit_ok s :
  bis_inv s ->
  match bis_rem s with
  | [] => bis_read_bit s = (false, s)
  | b :: r => exists s', bis_read_bit s = (b, s') /\ bis_inv s' /\ bis_rem s' = r
  end.
Proof.
  intros Hi. pose proof (eof_spec s Hi) as He.
  unfold bis_read_bit. destruct (bis_rem s) as [|b r] eqn:Er.
  - destruct He as [_ He]. rewrite He; auto.
  - destruct (bis_eof s) eqn:E.
    { destruct He as [He _]. specialize (He eq_refl). discriminate. }
    destruct Hi as [H1 H2]. unfold bis_rem in Er. unfold bis_eof in E.
    destruct (bi_final s) eqn:Ef; cbn [andb] in E.
    + rewrite Nat.leb_gt in E. specialize (H2 eq_refl).
      destruct (bi_cursor s) as [|c] eqn:Ec; [lia|].
      destruct (S c - (7 - N.to_nat (bi_fbits s))) eqn:D; [lia|].
      cbn [bits_down] in Er. apply cons_inj in Er; destruct Er as [Eb Er]. subst b.
      eexists; split; [reflexivity|]. split.
      * split; cbn [bi_cursor bi_final bi_fbits]; auto. lia.
      * unfold bis_rem; cbn [bi_cursor bi_final bi_fbits bi_cur].
        rewrite <- Er. replace (S c - 1) with c by lia.
        replace (c - (7 - N.to_nat (bi_fbits s))) with n by lia. reflexivity.
    + destruct (bi_cursor s) as [|c] eqn:Ec.
      * cbn [bits_down app] in Er. apply cons_inj in Er; destruct Er as [Eb Er]. subst b.
        eexists; split; [reflexivity|].
        destruct (read_next_ok s Ef) as [Hi' Hr']. split; auto. rewrite Hr'. exact Er.
      * change (bits_down (bi_cur s) (S c) (S (S c)))
          with (N.testbit (bi_cur s) (N.of_nat (S c)) :: bits_down (bi_cur s) (S c - 1) (S c)) in Er.
        cbn [app] in Er. apply cons_inj in Er; destruct Er as [Eb Er]. subst b.
        eexists; split; [reflexivity|]. split.
        -- split; cbn [bi_cursor bi_final bi_fbits]; auto; lia.
        -- unfold bis_rem; cbn [bi_cursor bi_final bi_fbits bi_cur bi_next bi_rest].
           rewrite <- Er. replace (S c - 1) with c by lia. reflexivity.
Qed.

(** ** Writer *)
Definition bos_pend_val (pb : list bool) : N :=
  bo_next (bos_write_bits (mk_bos [] false 0 7) pb).

Definition bos_rel (s : bos) (bs : list bool) : Prop :=
  exists pb, length pb <= 7 /\ bo_cur s = 7 - length pb /\
    s = mk_bos (bo_out s) (negb (length pb =? 0)) (bos_pend_val pb) (7 - length pb) /\
    flat_map byte_bits (bo_out s) ++ pb = bs.

Lemma write_bit_out_indep out d n c b :
  bos_write_bit (mk_bos out d n (S c)) b =
  let s := bos_write_bit (mk_bos [] d n (S c)) b in
  mk_bos out (bo_dirty s) (bo_next s) (bo_cur s).
Proof. reflexivity. Qed.

Lemma pend_snoc_cur pb : length pb <= 7 ->
  bos_write_bits (mk_bos [] false 0 7) pb =
  mk_bos [] (negb (length pb =? 0)) (bos_pend_val pb) (7 - length pb).
Proof.
  unfold bos_pend_val. induction pb as [|b pb IH] using rev_ind; intros H; [reflexivity|].
  unfold bos_write_bits in *. rewrite !fold_left_app. cbn [fold_left].
  rewrite app_length in *; cbn [length] in *.
  rewrite IH by lia.
  destruct (7 - length pb) eqn:E; [lia|].
  unfold bos_write_bit; cbn [bo_out bo_dirty bo_next bo_cur].
  f_equal; [|lia].
  replace (length pb + 1 =? 0) with false; auto.
  symmetry; apply Nat.eqb_neq; lia.
Qed.

Fixpoint list_eqb (l1 l2 : list bool) : bool :=
  match l1, l2 with
  | [], [] => true
  | a :: l1, b :: l2 => Bool.eqb a b && list_eqb l1 l2
  | _, _ => false
  end.
Lemma list_eqb_eq l1 l2 : list_eqb l1 l2 = true -> l1 = l2.
Proof.
  revert l2; induction l1; destruct l2; simpl; try discriminate; auto.
  rewrite andb_true_iff. intros [H1 H2]. apply eqb_prop in H1. f_equal; auto.
Qed.

(** finite sweep: a full byte *)
Lemma full_byte_sweep pb : length pb = 7 -> forall b : bool,
  byte_bits (if b then N.lor (bos_pend_val pb) 1 else bos_pend_val pb) = pb ++ [b].
Proof.
  intros H b. apply list_eqb_eq.
  revert pb H. destruct b.
  - apply (all_bits_forall 7 (fun pb => list_eqb (byte_bits (N.lor (bos_pend_val pb) 1)) (pb ++ [true]))).
    vm_compute; reflexivity.
  - apply (all_bits_forall 7 (fun pb => list_eqb (byte_bits (bos_pend_val pb)) (pb ++ [false]))).
    vm_compute; reflexivity.
Qed.

(** finite sweep: closing with a partially filled byte *)
Lemma close_sweep pb : length pb <= 7 ->
  let tail := bos_close (mk_bos [] (negb (length pb =? 0)) (bos_pend_val pb) (7 - length pb)) in
  list_eqb (file_bits tail) pb &&
  match tail with [] => false | [c] => negb (6 <=? N.land c 7)%N | _ => true end = true.
Proof.
  revert pb.
  apply (all_bits_forall_le 7 (fun pb =>
    let tail := bos_close (mk_bos [] (negb (length pb =? 0)) (bos_pend_val pb) (7 - length pb)) in
    list_eqb (file_bits tail) pb &&
    match tail with [] => false | [c] => negb (6 <=? N.land c 7)%N | _ => true end)).
  vm_compute; reflexivity.
Qed.

Lemma bos_close_out s :
  bos_close s = bo_out s ++ bos_close (mk_bos [] (bo_dirty s) (bo_next s) (bo_cur s)).
Proof.
  unfold bos_close. cbn [bo_cur]. destruct (2 <=? bo_cur s).
  - reflexivity.
  - unfold bos_write_next; cbn [bo_dirty bo_out].
    destruct (bo_dirty s); cbn [bo_out bo_dirty bo_next bo_cur bos_reset app].
    + rewrite <- app_assoc; reflexivity.
    + reflexivity.
Qed.

Lemma write_bit_rel s bs b : bos_rel s bs -> bos_rel (bos_write_bit s b) (bs ++ [b]).
Proof.
  intros (pb & Hl & Hc & Hs & Hb). rewrite Hs. clear Hs.
  set (out := bo_out s) in *. clearbody out. clear Hc.
  destruct (Nat.eq_dec (length pb) 7) as [E|E].
  - rewrite E. change (7 - 7) with 0. cbn [negb Nat.eqb].
    unfold bos_write_bit; cbn [bo_cur bo_next bo_out].
    unfold bos_write_next; cbn [bo_dirty bo_out bo_next bos_reset].
    exists []. cbn [length Nat.eqb negb bos_reset bo_out bo_cur]. repeat split; auto with arith.
    change (N.shiftl 1 (N.of_nat 0)) with 1%N.
    rewrite flat_map_app. cbn [flat_map]. rewrite (full_byte_sweep pb E b).
    rewrite !app_nil_r. rewrite <- Hb, app_assoc. reflexivity.
  - destruct (7 - length pb) eqn:E7; [lia|].
    exists (pb ++ [b]). rewrite app_length; cbn [length].
    assert (Hlen : length (pb ++ [b]) <= 7) by (rewrite app_length; cbn [length]; lia).
    pose proof (pend_snoc_cur _ Hlen) as Hp.
    rewrite app_length in Hp; cbn [length] in Hp.
    unfold bos_write_bits in Hp. rewrite fold_left_app in Hp. cbn [fold_left] in Hp.
    pose proof (pend_snoc_cur pb ltac:(lia)) as Hp0. unfold bos_write_bits in Hp0.
    rewrite Hp0, E7 in Hp.
    rewrite write_bit_out_indep. rewrite Hp. cbn [bo_dirty bo_next bo_cur bo_out].
    repeat split; auto; try lia. rewrite app_assoc, Hb. reflexivity.
Qed.

Lemma write_bits_rel bs' : forall s bs, bos_rel s bs -> bos_rel (bos_write_bits s bs') (bs ++ bs').
Proof.
  induction bs' as [|b bs' IH]; intros s bs H; cbn [bos_write_bits fold_left].
  - rewrite app_nil_r; exact H.
  - replace (bs ++ b :: bs') with ((bs ++ [b]) ++ bs') by (rewrite <- app_assoc; reflexivity).
    apply IH. apply write_bit_rel; exact H.
Qed.

Lemma open_rel : bos_rel bos_open [].
Proof. exists []; cbn; repeat split; auto with arith. Qed.

Lemma file_bits_app out tail :
  match tail with [] => false | [c] => negb (6 <=? N.land c 7)%N | _ => true end = true ->
  file_bits (out ++ tail) = flat_map byte_bits out ++ file_bits tail.
Proof.
  intros H. induction out as [|b out IH]; [reflexivity|].
  cbn [app flat_map]. rewrite <- app_assoc, <- IH. clear IH.
  destruct out as [|b' [|b'' out]].
  - cbn [app]. destruct tail as [|c [|d tail]]; [discriminate| |reflexivity].
    cbn [file_bits]. rewrite negb_true_iff in H. rewrite H. reflexivity.
  - cbn [app]. destruct tail as [|c tail]; [discriminate|reflexivity].
  - reflexivity.
Qed.

Lemma close_rel s bs : bos_rel s bs -> file_bits (bos_close s) = bs.
Proof.
  intros (pb & Hl & Hc & Hs & Hb).
  rewrite bos_close_out, Hs. cbn [bo_out bo_dirty bo_next bo_cur].
  pose proof (close_sweep pb Hl) as H. cbv zeta in H. rewrite andb_true_iff in H.
  destruct H as [H1 H2]. rewrite file_bits_app by exact H2.
  apply list_eqb_eq in H1. rewrite H1. exact Hb.
Qed.

Lemma file_bits_bits_file bs : file_bits (bits_file bs) = bs.
Proof. apply close_rel. apply (write_bits_rel bs bos_open []). apply open_rel. Qed.

(** ** Reader against the list of remaining bits *)
Lemma read_bits_ok n : forall s, bis_inv s ->
  exists s', bis_read_bits n s = (firstn n (bis_rem s) ++ repeat false (n - length (bis_rem s)), s')
   /\ bis_inv s' /\ bis_rem s' = skipn n (bis_rem s).
Proof.
  induction n as [|n IH]; intros s Hi.
  - exists s; cbn; auto.
  - cbn [bis_read_bits]. pose proof (read_bit_ok s Hi) as H.
    destruct (bis_rem s) as [|b r] eqn:E.
    + rewrite H. destruct (IH s Hi) as (s' & H1 & H2 & H3). rewrite E in H1, H3. rewrite H1.
      rewrite firstn_nil in *. rewrite skipn_nil in H3.
      exists s'. cbn [app length Nat.sub repeat skipn]. rewrite Nat.sub_0_r. auto.
    + destruct H as (s1 & H1 & H2 & H3). rewrite H1.
      destruct (IH s1 H2) as (s' & H4 & H5 & H6). rewrite H4, H3 in *.
      exists s'. cbn [firstn app skipn length Nat.sub]. auto.
Qed.

Lemma drain_ok fuel : forall s, bis_inv s -> length (bis_rem s) <= fuel ->
  bis_drain fuel s = Some (bis_rem s).
Proof.
  induction fuel as [|fuel IH]; intros s Hi Hl; cbn [bis_drain];
  pose proof (eof_spec s Hi) as He; pose proof (read_bit_ok s Hi) as H;
  destruct (bis_rem s) as [|b r] eqn:E.
  - rewrite (proj2 He eq_refl). reflexivity.
  - cbn in Hl; lia.
  - rewrite (proj2 He eq_refl). reflexivity.
  - destruct (bis_eof s). { rewrite (proj1 He eq_refl). auto. }
    destruct H as (s1 & H1 & H2 & H3). rewrite H1. rewrite IH; auto.
    + rewrite H3; reflexivity.
    + rewrite H3; cbn in Hl; lia.
Qed.

Lemma file_bits_length f : length (file_bits f) <= 8 * length f.
Proof.
  assert (Hb : forall b, length (byte_bits b) = 8) by reflexivity.
  induction f as [|b f IH]; [cbn; lia|].
  cbn [file_bits]. destruct f as [|c [|d f]].
  - rewrite firstn_length, Hb. cbn [length]. lia.
  - destruct (6 <=? N.land c 7)%N.
    + rewrite firstn_length, Hb. cbn [length]. lia.
    + rewrite app_length, Hb. cbn [length] in *. lia.
  - rewrite app_length, Hb. cbn [length] in *. lia.
Qed.

(** The state of a reader after reading [n] bits of file [f]. *)
Definition bis_after (f : list N) (n : nat) : bis := snd (bis_read_bits n (bis_open f)).

Lemma bis_after_ok f n : bis_inv (bis_after f n) /\ bis_rem (bis_after f n) = skipn n (file_bits f).
Proof.
  destruct (open_ok f) as [Hi Hr].
  destruct (read_bits_ok n _ Hi) as (s' & H1 & H2 & H3).
  unfold bis_after. rewrite H1. cbn [snd]. rewrite H3, Hr. auto.
Qed.

Lemma after_eof f n : bis_eof (bis_after f n) = (length (file_bits f) <=? n).
Proof.
  destruct (bis_after_ok f n) as [Hi Hr].
  pose proof (eof_spec _ Hi) as He. rewrite Hr in He.
  destruct (Nat.leb_spec (length (file_bits f)) n) as [H|H].
  - apply He. apply skipn_all2; lia.
  - destruct (bis_eof (bis_after f n)); auto. exfalso.
    assert (length (skipn n (file_bits f)) = 0) by (rewrite (proj1 He eq_refl); reflexivity).
    rewrite skipn_length in H0. lia.
Qed.

Lemma after_S f n : bis_after f (S n) = snd (bis_read_bit (bis_after f n)).
Proof.
  unfold bis_after. generalize (bis_open f). induction n as [|n IH]; intros s.
  - cbn [bis_read_bits snd]. destruct (bis_read_bit s) as [b s1] eqn:E. reflexivity.
  - cbn [bis_read_bits] in *. destruct (bis_read_bit s) as [b s1].
    specialize (IH s1). destruct (bis_read_bit s1) as [b1 s2] eqn:E.
    destruct (bis_read_bits n s2) as [l s3]. cbn [snd] in *. rewrite IH.
    destruct (bis_read_bits n s1); reflexivity.
Qed.

(** C01. Writing any bit sequence, closing, re-opening and reading until eof()
    yields exactly that sequence; the loop needs no more steps than there are bits. *)
Lemma bitstream_roundtrip_pf :
  forall bs, bis_drain (length bs) (bis_open (bits_file bs)) = Some bs.
Proof.
  intros bs. destruct (open_ok (bits_file bs)) as [Hi Hr].
  rewrite file_bits_bits_file in Hr.
  rewrite drain_ok; auto; rewrite Hr; auto.
Qed.

(** C01. eof() is false before each written bit and true after the last one. *)
Lemma bitstream_eof_exact_pf :
  forall bs n, bis_eof (bis_after (bits_file bs) n) = (length bs <=? n).
Proof. intros bs n. rewrite after_eof, file_bits_bits_file. reflexivity. Qed.

(** C01. The first [n] reads return the first [n] written bits, then zeros. *)
Lemma bitstream_prefix_reads_pf :
  forall bs n, fst (bis_read_bits n (bis_open (bits_file bs)))
               = firstn n bs ++ repeat false (n - length bs).
Proof.
  intros bs n. destruct (open_ok (bits_file bs)) as [Hi Hr].
  destruct (read_bits_ok n _ Hi) as (s' & H1 & _). rewrite H1, Hr, file_bits_bits_file. reflexivity.
Qed.

Lemma bitstream_bytes_ok_pf : forall bs, bytes_ok (bits_file bs).
Proof.
  intros bs.
  destruct (write_bits_rel bs bos_open [] open_rel) as (pb & Hl & Hc & Hs & Hb).
  unfold bits_file.
  assert (Hout : bytes_ok (bo_out (bos_write_bits bos_open bs))).
  { clear. assert (G : forall bs s, bytes_ok (bo_out s) -> (bo_next s < 256)%N -> bo_cur s <= 7 ->
      bytes_ok (bo_out (bos_write_bits s bs))).
    { clear. induction bs as [|b bs IH]; intros s H1 H2 H3; cbn [bos_write_bits fold_left]; auto.
      assert (H4 : ((if b then N.lor (bo_next s) (N.shiftl 1 (N.of_nat (bo_cur s))) else bo_next s) < 256)%N).
      { destruct b; auto. apply N.nle_gt. intros HH.
        assert (Hlog : (8 <= N.log2 (N.lor (bo_next s) (N.shiftl 1 (N.of_nat (bo_cur s)))))%N).
        { change 8%N with (N.log2 256). apply N.log2_le_mono; exact HH. }
        rewrite N.log2_lor in Hlog. rewrite N.log2_shiftl in Hlog by discriminate.
        change (N.log2 1) with 0%N in Hlog.
        assert (N.log2 (bo_next s) < 8)%N.
        { destruct (N.eq_dec (bo_next s) 0) as [->|Hz]; [cbn; lia|]. apply N.log2_lt_pow2; [lia|exact H2]. }
        lia. }
      apply IH; unfold bos_write_bit; destruct (bo_cur s) as [|c] eqn:Ec;
        unfold bos_write_next; cbn [bo_dirty bo_out bo_next bo_cur bos_reset]; auto; try lia.
      apply Forall_app; split; auto. }
    apply G; cbn; [constructor|reflexivity|lia]. }
  rewrite bos_close_out. apply Forall_app; split; auto.
  rewrite Hs; cbn [bo_dirty bo_next bo_cur].
  assert (G : forall pb, length pb <= 7 ->
     bytes_okb (bos_close (mk_bos [] (negb (length pb =? 0)) (bos_pend_val pb) (7 - length pb))) = true).
  { apply (all_bits_forall_le 7 (fun pb =>
      bytes_okb (bos_close (mk_bos [] (negb (length pb =? 0)) (bos_pend_val pb) (7 - length pb))))).
    vm_compute; reflexivity. }
  apply bytes_okb_spec, G, Hl.
Qed.

(** C02. *)
Lemma bitreader_total_pf :
  forall f, exists bs, bis_drain (8 * length f) (bis_open f) = Some bs /\ length bs <= 8 * length f.
Proof.
  intros f. destruct (open_ok f) as [Hi Hr]. exists (file_bits f).
  pose proof (file_bits_length f). split; auto.
  rewrite drain_ok; rewrite ?Hr; auto.
Qed.

Lemma bitreader_eof_absorbing_pf :
  forall f n m, bis_eof (bis_after f n) = true ->
    bis_eof (bis_after f (n + m)) = true /\
    bis_read_bit (bis_after f (n + m)) = (false, bis_after f (n + m)).
Proof.
  intros f n m H. rewrite after_eof in H. apply Nat.leb_le in H.
  assert (E : bis_eof (bis_after f (n + m)) = true).
  { rewrite after_eof. apply Nat.leb_le. lia. }
  split; auto. unfold bis_read_bit. rewrite E. reflexivity.
Qed.
