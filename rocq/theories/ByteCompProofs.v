From Verif Require Import Base BitIO BitIOProofs IntCodes IntCodesProofs Coders CodersProofs ByteComp.
From Coq Require Import Permutation.
Local Open Scope N_scope.

(** ** RLE *)
Fixpoint ends_ff_ff (l : list N) : bool :=
  match l with
  | [a; b] => (a =? 255) && (b =? 255)
  | _ :: l' => ends_ff_ff l'
  | [] => false
  end.

Lemma ends_cons a b c l : ends_ff_ff (a :: b :: c :: l) = ends_ff_ff (b :: c :: l).
Proof. reflexivity. Qed.

Lemma ends_app p a b : ends_ff_ff (p ++ [a; b]) = (a =? 255) && (b =? 255).
Proof.
  induction p as [|x p IH]; [reflexivity|].
  destruct p as [|y p]; [reflexivity|]. destruct p as [|z p]; [reflexivity|]. exact IH.
Qed.

Lemma ends_inv l : ends_ff_ff l = true -> exists p, l = p ++ [255; 255].
Proof.
  induction l as [|a l IH]; [discriminate|]. destruct l as [|b l]; [discriminate|].
  destruct l as [|c l].
  - cbn. intros H. exists []. cbn. f_equal; [lia|]. f_equal. lia.
  - intros H. destruct (IH H) as (p & Hp). exists (a :: p). rewrite Hp. reflexivity.
Qed.

Lemma rle_run_spec c l : (c = 255 -> l <> []) ->
  exists run r, rle_run c l = Some (run, r) /\ l = repeat c (N.to_nat run) ++ r /\ run <= N.of_nat (length l).
Proof.
  induction l as [|p l IH]; intros H; cbn [rle_run].
  - destruct (N.eqb_spec c 255); [exfalso; apply H; auto|]. exists 0, []. cbn. repeat split; lia.
  - destruct (N.ltb_spec c 128) as [Hc|Hc]; cbn [andb].
    + destruct (N.eqb_spec p c) as [->|Hp].
      * destruct IH as (run & r & -> & E & Hl); [lia|]. exists (run + 1), r. repeat split.
        -- rewrite E at 1. replace (N.to_nat (run + 1)) with (S (N.to_nat run)) by lia. reflexivity.
        -- cbn [length]. lia.
      * exists 0, (p :: l). cbn [length]. repeat split; lia.
    + exists 0, (p :: l). cbn [length]. repeat split; lia.
Qed.

Lemma ends_skip l : forall a b, ends_ff_ff (a :: b :: l) = false -> ends_ff_ff (b :: l) = false.
Proof. intros a b. destruct l; auto. Qed.

Lemma ends_run c n : forall r, ends_ff_ff (c :: repeat c n ++ r) = false -> ends_ff_ff (c :: r) = false.
Proof.
  induction n as [|n IH]; intros r H; auto.
  cbn [repeat app] in H. apply ends_skip in H. auto.
Qed.

Lemma rle_enc_dec fuel : forall offset prev l, is64 offset -> N.of_nat (length l) < 2 ^ 64 ->
  (length l <= fuel)%nat -> ends_ff_ff (prev :: l) = false ->
  exists e, rle_enc_loop fuel offset prev l = Some e /\
    forall fuel', (length e <= fuel')%nat -> rle_dec_loop fuel' offset prev e = Some l.
Proof.
  induction fuel as [|fuel IH]; intros offset prev l Ho H64 Hf He; destruct l as [|c l]; cbn [length] in *; try lia.
  - exists []. split; auto. intros [|?] _; reflexivity.
  - exists []. split; auto. intros [|?] _; reflexivity.
  - cbn [rle_enc_loop]. destruct (N.eqb_spec prev c) as [->|Hp].
    + destruct (rle_run_spec c l) as (run & r & E & El & Hrl).
      { intros -> ->. cbn in He. discriminate. }
      rewrite E. cbn [obind].
      destruct (vbyte_ok (w64 (run + offset)) [] (w64_lt _)) as (vb & Ev & _).
      rewrite Ev. cbn [obind].
      assert (Hr : ends_ff_ff (c :: r) = false).
      { apply ends_skip in He. rewrite El in He. apply ends_run in He. exact He. }
      assert (Hlr : (length r <= length l)%nat) by (rewrite El, app_length; lia).
      destruct (IH offset c r Ho) as (e & Ee & Hd); auto; try lia.
      rewrite Ee. cbn [obind]. eexists; split; [reflexivity|].
      intros fuel' Hf'. cbn [length] in Hf'. destruct fuel' as [|fuel']; [lia|].
      cbn [rle_dec_loop]. rewrite N.eqb_refl.
      destruct (vbyte_ok (w64 (run + offset)) e (w64_lt _)) as (vb' & Ev' & Hread).
      rewrite Ev in Ev'. apply Some_inj in Ev'; subst vb'.
      rewrite Hread. cbn [obind]. rewrite app_length in Hf'. rewrite Hd by lia. cbn [obind].
      f_equal.
      assert (Hw : w64 (w64 (run + offset) + 2 ^ 64 - offset) = run).
      { unfold is64 in Ho. unfold w64.
        destruct (N.lt_ge_cases (run + offset) (2 ^ 64)) as [Hlt|Hge].
        - rewrite (N.mod_small (run + offset)) by auto.
          replace (run + offset + 2 ^ 64 - offset) with (run + 1 * 2 ^ 64) by lia.
          rewrite N.mod_add by discriminate. apply N.mod_small. lia.
        - replace ((run + offset) mod 2 ^ 64) with (run + offset - 2 ^ 64).
          + replace (run + offset - 2 ^ 64 + 2 ^ 64 - offset) with run by lia. apply N.mod_small. lia.
          + symmetry. replace (run + offset) with ((run + offset - 2 ^ 64) + 1 * 2 ^ 64) at 1 by lia.
            rewrite N.mod_add by discriminate. apply N.mod_small. lia. }
      rewrite Hw. rewrite El.
      replace (repeat c (N.to_nat run) ++ c :: r) with ((repeat c (N.to_nat run) ++ [c]) ++ r)
        by (rewrite <- app_assoc; reflexivity).
      rewrite <- repeat_cons. reflexivity.
    + destruct (IH offset c l Ho) as (e & Ee & Hd); auto; try lia.
      { destruct l; auto. }
      rewrite Ee. cbn [obind]. eexists; split; [reflexivity|].
      intros fuel' Hf'. cbn [length] in Hf'. destruct fuel' as [|fuel']; [lia|].
      cbn [rle_dec_loop]. destruct (N.eqb_spec prev c); [congruence|].
      rewrite Hd by lia. reflexivity.
Qed.

Lemma rle_roundtrip_pf : forall offset t, is64 offset -> N.of_nat (length t) < 2 ^ 64 ->
  (forall p, t <> p ++ [255; 255]) ->
  exists e, rle_encode offset t = Some e /\ rle_decode offset e = Some t.
Proof.
  intros offset t Ho H64 Hne. destruct t as [|p l].
  - exists []; auto.
  - cbn [rle_encode length] in *.
    assert (He : ends_ff_ff (p :: l) = false).
    { destruct (ends_ff_ff (p :: l)) eqn:E; auto. destruct (ends_inv _ E) as (q & Hq). destruct (Hne q Hq). }
    destruct (rle_enc_dec (length l) offset p l) as (e & Ee & Hd); auto; try lia.
    rewrite Ee. cbn [obind]. eexists; split; [reflexivity|].
    cbn [rle_decode]. rewrite Hd by auto. reflexivity.
Qed.

(** Every text ending in two 0xFF bytes makes the compressor loop forever. *)
Lemma rle_run_noff l : l <> [] -> rle_run 255 l = Some (0, l).
Proof. destruct l; [congruence|reflexivity]. Qed.

Lemma rle_hang fuel : forall offset prev l, is64 offset ->
  ends_ff_ff (prev :: l) = true -> rle_enc_loop fuel offset prev l = None.
Proof.
  induction fuel as [|fuel IH]; intros offset prev l Ho He; destruct l as [|c l]; try discriminate; auto.
  cbn [rle_enc_loop].
  destruct (list_eq_dec N.eq_dec l []) as [->|Hl].
  - cbn in He. assert (prev = 255 /\ c = 255) as [-> ->] by lia. reflexivity.
  - assert (Hc : ends_ff_ff (c :: l) = true).
    { destruct l; [congruence|]. exact He. }
    destruct (prev =? c).
    + destruct (rle_run_spec c l) as (run & r & E & El & Hrl); [auto|]. rewrite E. cbn [obind].
      destruct (write_vbyte _) as [vb|]; cbn [obind]; auto.
      rewrite IH; auto.
      destruct (N.eq_dec c 255) as [->|Hn].
      { rewrite rle_run_noff in E by auto. apply Some_inj in E. injection E as <- <-. auto. }
      destruct (ends_inv _ Hc) as (p & Hp).
      clear IH He E. revert l Hl Hc El Hrl Hp. intros l Hl Hc El _ Hp. subst l.
      (* c :: repeat c k ++ r ends in ff ff and c <> ff *)
      clear Hl Hp p Ho. induction (N.to_nat run) as [|k IHk]; auto.
      apply IHk. cbn [repeat app] in Hc.
      destruct (repeat c k ++ r) as [|y ys] eqn:Ey.
      { cbn in Hc. lia. }
      exact Hc.
    + rewrite IH; auto.
Qed.

Lemma rle_hangs_pf : forall offset p, is64 offset -> rle_encode offset (p ++ [255; 255]) = None.
Proof.
  intros offset p Ho. destruct p as [|x p].
  - cbn [app rle_encode]. rewrite rle_hang; auto.
  - cbn [app rle_encode]. rewrite rle_hang; auto.
    change (x :: p ++ [255; 255]) with ((x :: p) ++ [255; 255]). rewrite ends_app. reflexivity.
Qed.

(** ** MTF *)
Lemma mtf_shift_spec i : forall t, (i < length t)%nat ->
  mtf_shift i t = nth 0 t 0 :: firstn i t ++ skipn (S i) t.
Proof.
  induction i as [|i IH]; intros t H.
  - destruct t; [cbn in H; lia|reflexivity].
  - cbn [mtf_shift]. rewrite IH by (rewrite upd_length; lia).
    apply nth_error_ext. intros [|k].
    + destruct t; [cbn in H; lia|]. reflexivity.
    + cbn [nth_error].
      assert (Hn : forall (l1 l2 : list N) n, nth_error (l1 ++ l2) n =
        if (n <? length l1)%nat then nth_error l1 n else nth_error l2 (n - length l1)).
      { intros l1 l2 n. destruct (Nat.ltb_spec n (length l1)); [apply nth_error_app1|apply nth_error_app2]; auto. }
      assert (Hf : forall n (l : list N) k, nth_error (firstn n l) k = if (k <? n)%nat then nth_error l k else None).
      { clear. induction n as [|n IH]; intros [|a l] [|k]; cbn [firstn nth_error]; auto.
        - destruct (S k <? S n)%nat; auto.
        - rewrite IH. reflexivity. }
      assert (Hs : forall n (l : list N) k, nth_error (skipn n l) k = nth_error l (n + k)).
      { clear. induction n as [|n IH]; intros [|a l] k; cbn [skipn]; auto. destruct k; auto. apply IH. }
      rewrite !Hn, !firstn_length, !upd_length, !Hf, !Hs.
      destruct (Nat.eq_dec k i) as [->|Hk].
      * destruct (Nat.ltb_spec i (min i (length t))); [lia|].
        destruct (Nat.ltb_spec i (min (S i) (length t))); [|lia].
        destruct (Nat.ltb_spec i (S i)); [|lia].
        replace (S i + (i - min i (length t)))%nat with (S i) by lia.
        rewrite nth_error_upd_eq by auto. symmetry. apply nth_error_nth'. lia.
      * destruct (Nat.ltb_spec k (min i (length t))).
        -- destruct (Nat.ltb_spec k (min (S i) (length t))); [|lia].
           destruct (Nat.ltb_spec k i); [|lia]. destruct (Nat.ltb_spec k (S i)); [|lia].
           apply nth_error_upd_ne. lia.
        -- destruct (Nat.ltb_spec k (min (S i) (length t))); [lia|].
           rewrite nth_error_upd_ne by lia. f_equal. lia.
Qed.

Lemma mtf_move_perm t i : (i < length t)%nat ->
  Permutation (upd (mtf_shift i t) 0 (nth i t 0)) t.
Proof.
  intros H. rewrite mtf_shift_spec by auto. cbn [upd].
  rewrite <- (firstn_skipn i t) at 4. rewrite (skipn_cons_nth t i 0 H).
  apply Permutation_middle.
Qed.

Lemma mtf_find_spec v t : In v t -> exists i, mtf_find v t = Some i /\ (i < length t)%nat /\ nth i t 0 = v.
Proof.
  induction t as [|x t IH]; intros H; [contradiction|]. cbn [mtf_find].
  destruct (N.eqb_spec x v) as [->|Hx].
  - exists O. cbn. repeat split; auto. lia.
  - destruct H as [H|H]; [congruence|]. destruct (IH H) as (i & -> & Hl & Hn).
    exists (S i). cbn. repeat split; auto. lia.
Qed.

Lemma mtf_loop_ok l : forall t, (forall v, byte_ok v -> In v t) -> bytes_ok l ->
  exists e, mtf_loop mtf_encode_char t l = Some e /\ mtf_loop mtf_decode_char t e = Some l /\
    Forall (fun x => (N.to_nat x < length t)%nat) e.
Proof.
  induction l as [|c l IH]; intros t Ht Hl.
  - exists []; auto.
  - inversion Hl as [|? ? Hc Hl']; subst. cbn [mtf_loop]. unfold mtf_encode_char at 1.
    destruct (mtf_find_spec c t (Ht c Hc)) as (i & -> & Hi & Hn). cbn [obind].
    pose proof (mtf_move_perm t i Hi) as Hp. rewrite Hn in Hp.
    destruct (IH (upd (mtf_shift i t) 0 c)) as (e & -> & Hd & Hall); auto.
    { intros v Hv. apply (Permutation_in v (Permutation_sym Hp)). auto. }
    cbn [obind]. eexists; split; [reflexivity|]. split.
    + cbn [mtf_loop]. unfold mtf_decode_char at 1. rewrite Nat2N.id.
      rewrite (nth_error_nth' t 0 Hi), Hn. cbn [obind]. rewrite Hd. reflexivity.
    + apply Permutation_length in Hp. constructor; [lia|]. rewrite Hp in Hall. exact Hall.
Qed.

Lemma mtf_table0_all v : byte_ok v -> In v mtf_table0.
Proof.
  intros H. unfold mtf_table0. apply in_map_iff. exists (N.to_nat v). unfold byte_ok in H.
  split; [lia|]. apply in_seq. lia.
Qed.

Lemma mtf_roundtrip_pf : forall t, bytes_ok t ->
  exists e, mtf_encode t = Some e /\ bytes_ok e /\ mtf_decode e = Some t.
Proof.
  intros t Ht. destruct (mtf_loop_ok t mtf_table0 mtf_table0_all Ht) as (e & E & D & Hl).
  exists e. repeat split; auto. revert Hl. apply Forall_impl. intros a Ha.
  change (length mtf_table0) with 256%nat in Ha. unfold byte_ok. lia.
Qed.

(** ** LiteralEncoder *)
Lemma litenc_loop_ok c R : decodes c R -> forall text fuel s, bytes_ok text ->
  R s (map (fun x => (x, RLit)) text) -> (length text <= fuel)%nat -> litenc_loop c fuel s = Some text.
Proof.
  intros [H1 H2]. induction text as [|x text IH]; intros fuel s Ht HR Hf; cbn [map length] in *.
  - destruct fuel; cbn [litenc_loop]; rewrite (H1 _ HR); reflexivity.
  - destruct (H2 _ _ _ _ HR) as (He & s' & Hd & HR').
    destruct fuel as [|fuel]; [lia|]. cbn [litenc_loop]. rewrite He, Hd. cbn [obind call_val].
    inversion Ht as [|? ? Hx Ht']; subst.
    rewrite (IH fuel s' Ht' HR') by lia. cbn [obind]. unfold w8. rewrite N.mod_small by exact Hx. reflexivity.
Qed.

Lemma lits_of_map text : lits_of (map (fun x => (x, RLit)) text) = text.
Proof. induction text; cbn; auto. f_equal; auto. Qed.

Lemma litenc_pf : forall (P : list N -> Prop) c, coder_ok_lits P c ->
  forall text, bytes_ok text -> P text ->
  exists f, litenc_compress c text = Some f /\
    forall fuel, (length text <= fuel)%nat -> litenc_decompress c fuel f = Some text.
Proof.
  intros P c Hc text Ht HP. unfold litenc_compress, litenc_decompress.
  destruct (Hc (map (fun x => (x, RLit)) text)) as (f & s & R & E & Eo & HD & HR).
  - apply Forall_map. revert Ht. apply Forall_impl. intros a H; exact H.
  - rewrite lits_of_map; exact HP.
  - rewrite lits_of_map in E. exists f. split; auto. intros fuel Hf. rewrite Eo. cbn [obind].
    apply (litenc_loop_ok c R); auto.
Qed.

Lemma coder_ok_is_lits c : coder_ok c -> coder_ok_lits (fun _ => True) c.
Proof. intros H cs Hc _. apply H; auto. Qed.

Lemma litenc_simple_pf : forall k text, bytes_ok text ->
  exists f, litenc_compress (simple_coder k) text = Some f /\
    forall fuel, (length text <= fuel)%nat -> litenc_decompress (simple_coder k) fuel f = Some text.
Proof. intros k text Ht. apply (litenc_pf (fun _ => True)); auto. apply coder_ok_is_lits, simple_coder_ok. Qed.

Lemma noop_pf : forall sm sm' d d' l, noop_decompress sm' d' (noop_compress sm d l) = l.
Proof. intros [] [] [] []; reflexivity. Qed.
