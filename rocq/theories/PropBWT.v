(** C23: Burrows-Wheeler transform.  Specification: SASpec.v (suffix order, suffix array). *)
From Verif Require Import Base SASpec BWT BWTProofs Escape EscapeProofs PropEscape.
Local Open Scope nat_scope.

(** a checker for concrete suffix arrays *)
Definition sa_check (text : list N) (sa : list nat) : bool :=
  let n := length text in
  (length sa =? n) && forallb (fun i => existsb (Nat.eqb i) sa) (seq 0 n) &&
  forallb (fun i => forallb (fun j => negb (i <? j) || suf_lt text (nth i sa 0) (nth j sa 0)) (seq 0 n)) (seq 0 n).
Lemma sa_checked text sa : sa_check text sa = true -> is_sa text sa.
Proof.
  unfold sa_check. rewrite !andb_true_iff, Nat.eqb_eq, !forallb_forall. intros ((L & A) & B). split.
  - apply Permutation_sym. apply NoDup_Permutation_bis; [apply seq_NoDup|rewrite seq_length; lia|].
    intros x Hx. specialize (A x Hx). apply existsb_exists in A. destruct A as (y & Hy & E).
    apply Nat.eqb_eq in E. subst; auto.
  - intros i j H. specialize (B i ltac:(apply in_seq; lia)). rewrite forallb_forall in B.
    specialize (B j ltac:(apply in_seq; lia)). apply orb_prop in B. destruct B as [B|B]; auto.
    apply negb_true_iff in B. lia.
Qed.
(** The transform of a NUL-terminated text under its suffix array is inverted. *)
Theorem bwt_roundtrip : forall text sa, is_sa text sa -> terminated text ->
  Forall (fun c => (c < 255)%N) text ->
  exists b, bwt_encode text sa = Some b /\ length b = length text /\
    decode_bwt b = Some (firstn (length text - 1) text) /\
    (2 <= length text -> bwt_decompress b = Some text).
Proof.
  intros text sa H1 H2 H3. destruct (bwt_roundtrip_pf text sa H1 H2 H3) as (b & E & L & D).
  exists b. repeat split; auto. intros Hn. unfold bwt_decompress. rewrite D. cbn [obind].
  destruct H2 as (body & -> & _). rewrite app_length in *. simpl in Hn |- *.
  replace (length body + 1 - 1) with (length body + 0) by lia. rewrite firstn_app_2. simpl. rewrite app_nil_r.
  destruct body; [simpl in Hn; lia|auto].
Qed.
Print Assumptions bwt_roundtrip.

(** the transform is a rearrangement of the text *)
Theorem bwt_permutes : forall text sa b, is_sa text sa -> terminated text ->
  Forall (fun c => (c < 255)%N) text -> bwt_encode text sa = Some b -> Permutation b text.
Proof.
  intros text sa b Hsa Ht Hb E. rewrite (bwt_is text sa Hsa) in E. apply Some_inj in E. subst b.
  eapply Permutation_trans; [apply Permutation_map; apply (proj1 Hsa)|].
  pose proof (n_pos text sa Hsa Ht Hb) as Hn.
  rewrite (seq_hd text sa Hsa Ht Hb). simpl map. unfold BW at 1. simpl (0 =? 0). cbn iota.
  rewrite <- seq_shift, map_map.
  rewrite (map_ext (fun x => BW text (S x)) (fun x => T text x)).
  2:{ intros x. unfold BW. simpl. rewrite Nat.sub_0_r. reflexivity. }
  eapply Permutation_trans; [apply Permutation_cons_append|].
  replace (map (fun x => T text x) (seq 0 (length text - 1)) ++ [T text (length text - 1)])
    with (map (fun x => T text x) (seq 0 (length text))).
  2:{ rewrite (seq_tl text sa Hsa Ht Hb), map_app. reflexivity. }
  replace (map (fun x => T text x) (seq 0 (length text))) with text; auto.
  apply nth_ext with (d := 0%N) (d' := T text 0); rewrite ?map_length, ?seq_length; auto.
  intros i Hi. rewrite (map_nth (fun x => T text x)), seq_nth by auto. auto.
Qed.
Print Assumptions bwt_permutes.

Lemma plain_flag x : byte_ok x -> x <> 0%N -> x <> 255%N ->
  look (fe_flag (mk_em [255%N; 254%N] [255%N; 0%N] true)) x = 0%N.
Proof.
  intros Hx H0 H255.
  pose proof (bytes_forall (fun x => (x =? 0)%N || (x =? 255)%N ||
    (look (fe_flag (mk_em [255%N; 254%N] [255%N; 0%N] true)) x =? 0)%N) ltac:(vm_compute; reflexivity) x Hx) as F.
  cbv beta in F. apply orb_prop in F. destruct F as [F|F]; lia.
Qed.
(** Through the command line (escape 0, append the terminator; undo on the way back). *)
Theorem bwt_pipeline : forall data sa, bytes_ok data -> ~ In 0%N data -> ~ In 255%N data -> data <> [] ->
  let r := mk_restrictions [0%N] true in
  exists t, restrict_view r data = Some t /\
    (is_sa t sa -> exists b, bwt_encode t sa = Some b /\
       (do x <- bwt_decompress b; ostream_unrestrict r x) = Some data).
Proof.
  intros data sa Hd H0 H255 Hne r.
  assert (He : bytes_ok [0%N]) by (constructor; [reflexivity|constructor]).
  assert (Hen : enough [0%N]) by (apply six_escape_bytes_suffice; simpl; lia).
  destruct (unrestriction_lossless [0%N] true data He Hen Hd) as (t & R & U & _).
  fold r in R, U. exists t. split; auto. intros Hsa.
  assert (Et : t = data ++ [0%N]).
  { destruct (enough_good [0%N] true He Hen) as (m & Hm & G). fold r in Hm, G.
    pose proof (restrict_view_pf r m data Hm G Hd) as P. rewrite R in P. apply Some_inj in P. rewrite P.
    assert (m = mk_em [255%N; 254%N] [255%N; 0%N] true) as -> by (vm_compute in Hm; congruence).
    unfold restricted. cbn [em_nt]. f_equal. clear - H0 H255 Hd.
    induction data as [|x d IH]; auto. inversion Hd; subst.
    assert (x <> 0%N) by (intros ->; apply H0; left; auto).
    assert (x <> 255%N) by (intros ->; apply H255; left; auto).
    cbn [escape flat_map]. fold (escape (mk_em [255%N; 254%N] [255%N; 0%N] true) d).
    rewrite IH; [|auto|intros X; apply H0; right; auto|intros X; apply H255; right; auto].
    change (x :: d) with ([x] ++ d). f_equal. unfold esc1. rewrite plain_flag; auto. }
  subst t.
  assert (Ht : terminated (data ++ [0%N])).
  { exists data. split; auto. apply Forall_forall. intros x Hx ->. auto. }
  destruct (bwt_roundtrip _ sa Hsa Ht) as (b & E & _ & _ & D).
  { apply Forall_app. split; [|repeat constructor]. apply Forall_forall. intros x Hx.
    assert (x < 256)%N. { unfold bytes_ok in Hd. rewrite Forall_forall in Hd. apply Hd; auto. }
    assert (x <> 255%N) by (intros ->; auto). lia. }
  exists b. split; auto. rewrite D. { cbn [obind]. auto. }
  rewrite app_length. simpl. destruct data; [congruence|simpl; lia].
Qed.
Print Assumptions bwt_pipeline.

(** Byte 255 is excluded: compute_LF does not accumulate its counter.  Neither a text holding
    byte 255 nor a file holding byte 0 (escaped with byte 255) survives. *)
Theorem bwt_byte_255_refuted : exists (text : list N) (sa : list nat) (b : list N), is_sa text sa /\ terminated text /\ bytes_ok text /\
  bwt_encode text sa = Some b /\ bwt_decompress b <> Some text.
Proof.
  exists [97; 255; 98; 0]%N, [3; 0; 2; 1], [98; 0; 255; 97]%N.
  split; [|split; [|split; [|split]]].
  - apply sa_checked. vm_compute. reflexivity.
  - exists [97; 255; 98]%N. split; auto. repeat constructor; lia.
  - repeat constructor; vm_compute; auto.
  - reflexivity.
  - vm_compute. discriminate.
Qed.
Print Assumptions bwt_byte_255_refuted.
Theorem bwt_nul_file_refuted : exists (data t : list N) (sa : list nat) (b : list N), bytes_ok data /\
  restrict_view (mk_restrictions [0%N] true) data = Some t /\ is_sa t sa /\ bwt_encode t sa = Some b /\
  (do x <- bwt_decompress b; ostream_unrestrict (mk_restrictions [0%N] true) x) <> Some data.
Proof.
  exists [97; 0; 98]%N, [97; 255; 254; 98; 0]%N, [4; 0; 3; 2; 1], [98; 0; 254; 255; 97]%N.
  split; [repeat constructor; vm_compute; auto|]. split; [vm_compute; reflexivity|].
  split; [apply sa_checked; vm_compute; reflexivity|]. split; [reflexivity|]. vm_compute. discriminate.
Qed.
Print Assumptions bwt_nul_file_refuted.

(** non-vacuity: "banana" *)
Example bwt_banana :
  let t := [98; 97; 110; 97; 110; 97; 0]%N in let sa := [6; 5; 3; 1; 0; 4; 2] in
  is_sa t sa /\ terminated t /\ Forall (fun c => (c < 255)%N) t /\
  bwt_encode t sa = Some [97; 110; 110; 98; 0; 97; 97]%N /\
  bwt_decompress [97; 110; 110; 98; 0; 97; 97]%N = Some t.
Proof.
  cbv zeta. split; [apply sa_checked; vm_compute; reflexivity|]. split.
  { exists [98; 97; 110; 97; 110; 97]%N. split; auto. repeat constructor; lia. }
  split; [repeat constructor; lia|]. split; vm_compute; reflexivity.
Qed.
