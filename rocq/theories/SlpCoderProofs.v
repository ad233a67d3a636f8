(** The frame of the sorted SLP coder, for any coding of the right-hand sides. *)
From Verif Require Import Base BitIO BitIOProofs IntCodes IntCodesProofs Esp EspSpec EspProofs SlpSort SlpSortProofs.
Local Open Scope N_scope.

(** ** Reading back from a bit stream *)
Lemma rint_bis v w rest s : bisR s (write_int v w ++ rest) -> (w <= 64)%nat -> v < 2 ^ N.of_nat w ->
  exists s', rd_int bis_read_bit w s = (v, s') /\ bisR s' rest.
Proof.
  intros HR Hw Hv. pose proof (rd_int_sim _ _ _ bis_sim w _ _ HR) as [H1 H2]. rewrite rd_int_ok in H1, H2 by lia. cbn [fst snd] in H1, H2.
  destruct (rd_int bis_read_bit w s) as [x s']. cbn [fst snd] in *. exists s'. rewrite N.mod_small in H1 by auto. subst. auto.
Qed.
Lemma runary_bis v rest s fuel : bisR s (write_unary v ++ rest) -> v < 2 ^ 64 -> (N.to_nat v < fuel)%nat ->
  exists s', rd_unary bis_read_bit fuel s = Some (v, s') /\ bisR s' rest.
Proof.
  intros HR Hv Hf. pose proof (rd_unary_sim _ _ _ bis_sim fuel 0 _ _ HR) as G.
  pose proof (rd_unary_ok v fuel rest Hv Hf) as E. unfold rd_unary in *. rewrite E in G. cbn [osim] in G.
  destruct (rd_unary_loop bis_read_bit fuel 0 s) as [[x s']|]; [|contradiction]. destruct G as [G1 G2]. cbn [fst snd] in *. subst. eauto.
Qed.
Lemma rcint_bis v b rest s : v < 2 ^ 64 -> (0 < b < 64)%nat ->
  exists l, write_cint v b = Some l /\ (forall fuel, (length l <= fuel)%nat -> bisR s (l ++ rest) ->
  exists s', rd_cint bis_read_bit fuel b s = Some (v, s') /\ bisR s' rest).
Proof.
  intros Hv Hb. destruct (rd_cint_ok v b rest Hv Hb) as (l & E & H). exists l. split; [auto|]. intros fuel Hf HR.
  pose proof (rd_cint_sim _ _ _ bis_sim fuel b _ _ HR) as G. rewrite (H fuel Hf) in G. cbn [osim] in G.
  destruct (rd_cint bis_read_bit fuel b s) as [[x s']|]; [|contradiction]. destruct G as [G1 G2]. cbn [fst snd] in *. subst. eauto.
Qed.
Lemma rbit_bis b rest s : bisR s (b :: rest) -> exists s', bis_read_bit s = (b, s') /\ bisR s' rest.
Proof.
  intros HR. destruct (bis_sim _ _ HR) as [H1 H2]. cbn [lrb fst snd] in *. destruct (bis_read_bit s) as [x s']. cbn [fst snd] in *. subst. eauto.
Qed.
Lemma write_unary_length v : length (write_unary v) = S (N.to_nat v).
Proof. unfold write_unary. rewrite app_length, repeat_length. cbn. lia. Qed.

Lemma read_up_ok : forall l last s rest fuel, asc last l -> Forall (fun x => x < 2 ^ 64) l -> last < 2 ^ 64 ->
  bisR s (unary_up last l ++ rest) -> (length (unary_up last l) <= fuel)%nat ->
  exists s', read_up fuel (length l) last s = Some (l, s') /\ bisR s' rest.
Proof.
  induction l as [|e l IH]; intros last s rest fuel Ha HF Hl HR Hf.
  - exists s. cbn [read_up length]. auto.
  - destruct Ha as [Ha1 Ha2]. inversion HF as [|? ? He HF']; subst. cbn [unary_up] in *.
    assert (Ed : w64 (e + 2 ^ 64 - last) = e - last).
    { unfold w64. replace (e + 2 ^ 64 - last) with (e - last + 1 * 2 ^ 64) by lia. rewrite N.mod_add by lia. apply N.mod_small. lia. }
    rewrite Ed in *. rewrite app_length, write_unary_length in Hf.
    cbn [read_up length]. rewrite (bisR_eofb _ _ HR).
    destruct ((write_unary (e - last) ++ unary_up e l) ++ rest) as [|z0 z] eqn:Ez.
    { exfalso. apply (f_equal (@length bool)) in Ez. rewrite !app_length, write_unary_length in Ez. cbn in Ez. lia. }
    rewrite <- Ez in HR. clear Ez. rewrite <- app_assoc in HR.
    destruct (runary_bis _ _ _ fuel HR) as (s1 & E1 & HR1); [lia|lia|]. rewrite E1. cbn [obind].
    assert (Ee : w64 (last + (e - last)) = e) by (unfold w64; replace (last + (e - last)) with e by lia; apply N.mod_small; auto).
    rewrite Ee. destruct (IH e s1 rest fuel) as (s2 & E2 & HR2); auto; [lia|]. rewrite E2. cbn [obind]. eauto.
Qed.

(** [dc] gives the list [rhs] back *)
Definition dc_rt (dc : dcoding) (rhs : list N) (w : nat) (mx : N) : Prop :=
  exists bits, dc_enc dc rhs w mx = Some bits /\
    forall s fuel, bisR s bits -> (length bits < fuel)%nat -> exists s', dc_dec dc fuel (length rhs) w mx s = Some (rhs, s').
(** [dc] gives every list of right-hand sides back *)
Definition dcoding_ok (dc : dcoding) : Prop :=
  forall rhs mx, rhs <> [] -> N.of_nat (length rhs) + 255 = mx -> mx < 2 ^ 33 -> Forall (fun x => x <= mx) rhs -> dc_rt dc rhs (bits_forn mx) mx.

Lemma combine_split {A B} (l : list (A * B)) : combine (map fst l) (map snd l) = l.
Proof. induction l as [|[a b] l IH]; cbn; congruence. Qed.

Theorem sorted_slp_roundtrip dc g text : slp_ok g text ->
  (forall g', slp_dep_sort g = Some g' -> s_rules g' <> [] -> dc_rt dc (map snd (s_rules g')) (bits_forn (N.of_nat (length (s_rules g')) + 255)) (N.of_nat (length (s_rules g')) + 255)) ->
  exists b g', sorted_slp_bits dc g = Some b /\ sorted_slp_decode dc (bits_file b) = Some g' /\ derive_text g' = Some text.
Proof.
  intros Hok Hdc. pose proof (slp_derive g text Hok) as Hd.
  destruct (dep_sort_ok g text Hok) as (g' & E & Ee & El & Ha & HF & Hroot & Hr256 & Hr0 & Hd').
  specialize (Hdc g' E). destruct Hok as (Ho & Hsz & Hg). unfold sorted_slp_bits. rewrite E. cbn [obind]. rewrite <- El in *.
  set (mx := N.of_nat (length (s_rules g')) + 256 - 1).
  replace (N.of_nat (length (s_rules g')) + 255) with mx in Hdc by (unfold mx; lia).
  set (w := if s_empty g' then 0%nat else bits_forn mx).
  assert (Hw33 : bits_for mx <= 33) by (apply bits_for_min; unfold mx; lia).
  assert (Hw : (w <= 33)%nat) by (unfold w; destruct (s_empty g'); unfold bits_forn; lia).
  assert (Hw6 : N.of_nat w < 2 ^ N.of_nat 6) by (change (2 ^ N.of_nat 6) with 64; lia).
  set (body := if s_empty g' || (s_root g' <? 256) then Some [] else do d <- dc_enc dc (map snd (s_rules g')) w mx; Some (unary_up 0 (map fst (s_rules g')) ++ d)).
  assert (Hbody : (if s_empty g' || (s_root g' <? 256) then Some (write_int (N.of_nat w) 6 ++ write_int mx w ++ write_int (s_root g') w)
     else do d <- dc_enc dc (map snd (s_rules g')) w mx; Some ((write_int (N.of_nat w) 6 ++ write_int mx w ++ write_int (s_root g') w) ++ unary_up 0 (map fst (s_rules g')) ++ d))
     = do y <- body; Some (write_int (N.of_nat w) 6 ++ write_int mx w ++ write_int (s_root g') w ++ y)).
  { unfold body. destruct (s_empty g' || (s_root g' <? 256)); cbn [obind]; [rewrite !app_nil_r; reflexivity|].
    destruct (dc_enc dc (map snd (s_rules g')) w mx); cbn [obind]; [|reflexivity]. rewrite <- !app_assoc. reflexivity. }
  rewrite Hbody. clear Hbody.
  assert (Hempty : s_empty g' = true -> s_rules g' = [] /\ s_root g' = 0 /\ text = []).
  { intros E1. rewrite <- Ee, E1 in Hg. destruct Hg as (-> & Hru & Hro). split; [|auto]. rewrite Hru in El. destruct (s_rules g'); [auto|discriminate]. }
  assert (Hmw : s_empty g' = false -> mx < 2 ^ N.of_nat w).
  { intros E1. unfold w. rewrite E1. unfold bits_forn. rewrite N2Nat.id. apply bits_for_bound. }
  unfold sorted_slp_decode.
  assert (HEAD : forall y, exists s1 s2 s3,
       rd_int bis_read_bit 6 (bis_open (bits_file (write_int (N.of_nat w) 6 ++ write_int mx w ++ write_int (s_root g') w ++ y))) = (N.of_nat w, s1) /\
       rd_int bis_read_bit w s1 = (if s_empty g' then 0 else mx, s2) /\ rd_int bis_read_bit w s2 = (s_root g', s3) /\ bisR s3 y).
  { intros y. pose proof (bisR_file (write_int (N.of_nat w) 6 ++ write_int mx w ++ write_int (s_root g') w ++ y)) as HR.
    destruct (rint_bis _ _ _ _ HR) as (s1 & E1 & HR1); [lia|auto|].
    destruct (s_empty g') eqn:Eem.
    - destruct (Hempty eq_refl) as (_ & Hro & _). unfold w in *. cbn [N.of_nat] in *. rewrite Hro in *.
      change (write_int mx 0) with (@nil bool) in *. change (write_int 0 0) with (@nil bool) in *. cbn [app] in HR1.
      exists s1, s1, s1. split; [exact E1|]. split; [reflexivity|]. split; [reflexivity|auto].
    - specialize (Hmw eq_refl). destruct (rint_bis _ _ _ _ HR1) as (s2 & E2 & HR2); [lia|auto|].
      destruct (rint_bis _ _ _ _ HR2) as (s3 & E3 & HR3); [lia| |].
      { eapply N.le_lt_trans; [|exact Hmw]. rewrite <- Ee in Hroot. specialize (Hroot eq_refl). unfold mx. lia. }
      exists s1, s2, s3. auto. }
  destruct (s_empty g') eqn:Eem.
  - destruct (Hempty eq_refl) as (Hru & Hro & Htx). unfold body. cbn [orb obind]. eexists _, _. split; [reflexivity|].
    destruct (HEAD []) as (s1 & s2 & s3 & E1 & E2 & E3 & _).
    rewrite E1, Nat2N.id, E2, E3. unfold w. cbn [Nat.eqb orb]. split; [reflexivity|].
    unfold derive_text. cbn [s_empty]. congruence.
  - specialize (Hmw eq_refl). destruct (N.ltb_spec (s_root g') 256) as [L|L].
    + unfold body. cbn [orb obind]. eexists _, _. split; [reflexivity|].
      destruct (HEAD []) as (s1 & s2 & s3 & E1 & E2 & E3 & _).
      rewrite E1, Nat2N.id, E2, E3.
      assert (Hwz : (w =? 0)%nat = false). { apply Nat.eqb_neq. unfold w, bits_forn. pose proof (bits_for_pos mx). lia. }
      rewrite Hwz. cbn [orb]. rewrite (proj2 (N.ltb_lt _ _) L). split; [reflexivity|].
      unfold derive_text in *. cbn [s_empty s_rules s_root]. rewrite Eem in Hd'.
      cbn [derive_rec] in *. rewrite (proj2 (N.ltb_lt _ _) L) in *. exact Hd'.
    + destruct Hdc as (d & Ed & Hdec). { intros E0. rewrite <- Ee in Hroot. specialize (Hroot eq_refl). rewrite E0 in Hroot. cbn [length] in Hroot. lia. }
      assert (Ew : bits_forn mx = w) by (unfold w; reflexivity). rewrite Ew in Ed, Hdec.
      unfold body. cbn [orb]. rewrite Ed. cbn [obind].
      set (y := unary_up 0 (map fst (s_rules g')) ++ d) in *.
      eexists _, _. split; [reflexivity|].
      set (f := bits_file (write_int (N.of_nat w) 6 ++ write_int mx w ++ write_int (s_root g') w ++ y)).
      assert (Hfl : (length y <= 8 * length f)%nat).
      { pose proof (file_bits_length f) as Lf. unfold f in Lf. rewrite file_bits_bits_file in Lf. rewrite !app_length in Lf. fold f in Lf. lia. }
      destruct (HEAD y) as (s1 & s2 & s3 & E1 & E2 & E3 & HR3). fold f in E1.
      rewrite E1, Nat2N.id, E2, E3.
      assert (Hwz : (w =? 0)%nat = false). { apply Nat.eqb_neq. unfold w, bits_forn. pose proof (bits_for_pos mx). lia. }
      rewrite Hwz. cbn [orb]. rewrite (proj2 (N.ltb_ge _ _) L).
      assert (Hmx33 : mx < 2 ^ 33) by (unfold mx; lia).
      assert (Hn : N.to_nat (w64 (w64 (mx + 1) + 2 ^ 64 - 256)) = length (s_rules g')).
      { unfold w64. rewrite (N.mod_small (mx + 1)) by lia. unfold mx. replace (N.of_nat (length (s_rules g')) + 256 - 1 + 1 + 2 ^ 64 - 256) with (N.of_nat (length (s_rules g')) + 1 * 2 ^ 64) by lia.
        rewrite N.mod_add by lia. rewrite N.mod_small by (unfold mx in Hmx33; lia). lia. }
      rewrite Hn. unfold y in HR3. rewrite app_length in Hfl || idtac.
      destruct (read_up_ok (map fst (s_rules g')) 0 s3 d (S (8 * length f))) as (s5 & E5 & HR5); auto; [|lia| |].
      { apply Forall_map. eapply Forall_impl; [|exact HF]. cbn. intros r [Hr1 _]. unfold mx in Hmx33. lia. }
      { unfold y in Hfl. rewrite app_length in Hfl. lia. }
      rewrite map_length in E5. rewrite E5. cbn [obind].
      destruct (Hdec s5 (S (8 * length f)) HR5) as (s6 & E6). { unfold y in Hfl. rewrite app_length in Hfl. lia. }
      rewrite map_length in E6. rewrite E6. cbn [obind].
      split; [reflexivity|]. unfold pad. rewrite map_length, Nat.sub_diag. cbn [repeat]. rewrite app_nil_r, combine_split.
      unfold derive_text in *. cbn [s_empty s_rules s_root] in *. rewrite Eem in Hd'. exact Hd'.
Qed.

Theorem esp_sorted_ok dc text : dcoding_ok dc -> bytes_ok text -> N.of_nat (length text) < 2 ^ 32 ->
  exists f, esp_sorted_compress dc text = Some f /\ esp_sorted_decompress dc f = Some text.
Proof.
  intros Hdc Hb Ht. destruct (grammar_ok text Hb Ht) as (g & E & Hg).
  destruct (sorted_slp_roundtrip dc g text Hg) as (b & g' & E1 & E2 & E3).
  - intros g' Es Hne. destruct (dep_sort_ok g text Hg) as (g2 & Es2 & _ & El & _ & HF & _). rewrite Es in Es2. apply Some_inj in Es2. subst g2.
    apply Hdc.
    + destruct (s_rules g'); [congruence|discriminate].
    + rewrite map_length. reflexivity.
    + destruct Hg as (_ & H & _). lia.
    + apply Forall_map. eapply Forall_impl; [|exact HF]. cbn. intros; lia.
  - exists (bits_file b). unfold esp_sorted_compress, esp_sorted_decompress. rewrite E. cbn [obind]. rewrite E1. cbn [obind].
    split; [reflexivity|]. rewrite E2. exact E3.
Qed.
