(** Properties C20 (escaping), C21 (merging restrictions), C22 (streams = buffers). *)
From Verif Require Import Base Escape EscapeProofs.
Local Open Scope N_scope.

(** There are enough replacement bytes for a set of forbidden bytes: the pool of 13
    bytes that cannot occur in UTF-8 contains, outside the set, one byte more than
    the set has elements. *)
Definition enough (esc : list N) : Prop :=
  esc = [] \/ (length (nodup N.eq_dec esc) + 1 <= length (filter (fun b => negb (existsb (N.eqb b) esc))
     [255; 254; 192; 193; 245; 246; 247; 248; 249; 250; 251; 252; 253]%N))%nat.
(** six forbidden bytes are always fine *)
Theorem six_escape_bytes_suffice : forall esc, (length esc <= 6)%nat -> enough esc.
Proof.
  intros esc H. destruct esc as [|x esc]; [left; auto|right].
  rewrite <- norm_nodup_len. change (filter _ _) with (free_pool (x :: esc)). rewrite <- free_pool_norm.
  apply free_pool_enough; [apply norm_NoDup|]. pose proof (norm_length (x :: esc)). lia.
Qed.
Print Assumptions six_escape_bytes_suffice.
Lemma enough_good esc nt : bytes_ok esc -> enough esc ->
  exists m, escape_map (mk_restrictions esc nt) = Some m /\ good_map (mk_restrictions esc nt) m.
Proof.
  intros Hb H. apply mk_good; auto. unfold mk_restrictions; cbn [r_esc]. fold (norm esc). destruct H as [->|H]; [left; auto|].
  right. rewrite norm_nodup_len, free_pool_norm. exact H.
Qed.

Definition terminator (nt : bool) : list N := if nt then [0] else [].

(** C20/C22: all five ways to restrict an input (copying a view, mapping a file whose
    page tail holds arbitrary junk, buffering a stream, adding restrictions to an
    already buffered input, reading through a restricted stream) give the same bytes:
    a body free of forbidden bytes, then the terminator. *)
Theorem restriction_removes_forbidden : forall esc nt data junk, bytes_ok esc -> enough esc -> bytes_ok data ->
  let r := mk_restrictions esc nt in
  exists body, bytes_ok body /\ (forall x, In x esc -> ~ In x body) /\
    restrict_view r data = Some (body ++ terminator nt) /\
    restrict_file r data junk = Some (body ++ terminator nt) /\
    restrict_stream r data = Some (body ++ terminator nt) /\
    restrict_again r data = Some (body ++ terminator nt) /\
    istream_restrict r data = Some (body ++ terminator nt).
Proof.
  intros esc nt data junk He Hen Hd r. destruct (enough_good esc nt He Hen) as (m & Hm & G).
  fold r in Hm, G. exists (escape m data).
  assert (HR : restricted m data = escape m data ++ terminator nt)
    by (unfold restricted; rewrite (gm_nt _ _ G); reflexivity).
  rewrite <- HR. repeat split.
  - unfold bytes_ok. rewrite Forall_forall. intros x Hx. apply (restricted_clean r m data G Hd x Hx).
  - intros x Hx Hi. apply (restricted_clean r m data G Hd x Hi). cbn. apply norm_in. auto.
  - apply restrict_view_pf; auto.
  - apply restrict_file_pf; auto.
  - apply restrict_stream_pf; auto.
  - apply restrict_again_pf; auto.
  - apply istream_restrict_pf; auto.
Qed.
Print Assumptions restriction_removes_forbidden.
Example restriction_ex : bytes_ok [0; 255] /\ enough [0; 255] /\ bytes_ok [0; 65; 254; 255] /\
  restrict_view (mk_restrictions [0; 255] true) [0; 65; 254; 255] = Some [254; 192; 65; 254; 254; 254; 193; 0].
Proof.
  split; [repeat constructor|]. split; [apply six_escape_bytes_suffice; simpl; lia|].
  split; [repeat constructor|]. vm_compute. reflexivity.
Qed.

(** Un-restricting gives the data back: through the output stream always, on a buffer
    unless the only restriction is null termination and the data contains 0xFF. *)
Theorem unrestriction_lossless : forall esc nt data, bytes_ok esc -> enough esc -> bytes_ok data ->
  let r := mk_restrictions esc nt in
  exists buf, restrict_view r data = Some buf /\
    ostream_unrestrict r buf = Some data /\
    (esc <> [] \/ nt = false \/ ~ In 255 data -> unrestrict r buf = Some data).
Proof.
  intros esc nt data He Hen Hd r. destruct (enough_good esc nt He Hen) as (m & Hm & G).
  fold r in Hm, G. exists (restricted m data). split; [apply restrict_view_pf; auto|].
  split; [apply ostream_unrestrict_pf; auto|]. intros H.
  assert (HE : esc <> [] -> r_esc r <> []).
  { intros X E. destruct esc as [|x esc]; [congruence|].
    assert (In x (r_esc r)) by (cbn; apply (norm_in (x :: esc)); left; auto). rewrite E in H0. destruct H0. }
  destruct (has_no_restrictions r) eqn:HN.
  - unfold unrestrict. rewrite HN. f_equal.
    unfold has_no_restrictions in HN. apply andb_true_iff in HN. destruct HN as [HN1 HN2].
    apply noesc_nil in HN1. unfold restricted. rewrite (escape_id r m data G HN1 Hd), (gm_nt _ _ G).
    destruct (r_nt r); [discriminate|]. apply app_nil_r.
  - apply unrestrict_pf; auto. eapply unamb_all; eauto.
    destruct H as [H|[H|H]]; [left; auto| |right; auto].
    left. intros E. unfold has_no_restrictions in HN. apply noesc_nil in E. rewrite E in HN.
    unfold r in HN. simpl in HN. subst nt. discriminate.
Qed.
Print Assumptions unrestriction_lossless.

(** changing restrictions of a buffered input = restricting the original anew *)
Theorem change_restrictions_correct : forall esc nt esc' nt' data, bytes_ok esc -> enough esc ->
  bytes_ok esc' -> enough esc' -> bytes_ok data -> esc <> [] \/ nt = false \/ ~ In 255 data ->
  exists buf, restrict_view (mk_restrictions esc nt) data = Some buf /\
    change_restrictions (mk_restrictions esc nt) (mk_restrictions esc' nt') buf =
    restrict_view (mk_restrictions esc' nt') data.
Proof.
  intros esc nt esc' nt' data H1 H2 H3 H4 H5 H6.
  destruct (unrestriction_lossless esc nt data H1 H2 H5) as (buf & B1 & _ & B2).
  exists buf. split; auto. unfold change_restrictions. rewrite (B2 H6). cbn [obind].
  destruct (enough_good esc' nt' H3 H4) as (m & Hm & G).
  rewrite (restrict_view_pf _ m), (restrict_again_pf _ m); auto.
Qed.
Print Assumptions change_restrictions_correct.

(** The excluded buffer case is really lost: RestrictedBuffer::unrestrict() looks for
    the escape byte 0xFF even when nothing was escaped. *)
Theorem null_only_unrestrict_loses : forall data, In 255 data ->
  unrestrict (mk_restrictions [] true) (data ++ [0]) <> Some data.
Proof. exact unrestrict_loses_pf. Qed.
Print Assumptions null_only_unrestrict_loses.
(** and 13 or more forbidden bytes leave too few replacements. *)
Theorem too_many_escape_bytes : forall esc nt data, (13 <= length (nodup N.eq_dec esc))%nat ->
  restrict_view (mk_restrictions esc nt) data = None /\ istream_restrict (mk_restrictions esc nt) data = None.
Proof. intros. unfold restrict_view, istream_restrict. rewrite escape_map_none_pf by auto. auto. Qed.
Print Assumptions too_many_escape_bytes.

(** C21. *)
Definition wf_restr (r : restr) : Prop := exists esc nt, r = mk_restrictions esc nt.
Theorem restrictions_semilattice : forall a b c, wf_restr a -> wf_restr b -> wf_restr c ->
  wf_restr (restr_or a b) /\
  restr_or (restr_or a b) c = restr_or a (restr_or b c) /\
  restr_or a b = restr_or b a /\ restr_or a a = a /\
  restr_or a (mk_restrictions [] false) = a.
Proof.
  assert (I : forall a, wf_restr a -> restr_or a a = a /\ restr_or a (mk_restrictions [] false) = a).
  { intros a (e & n & ->). rewrite !restr_or_eq. unfold mk_restrictions; cbn [r_esc r_nt]. fold (norm e).
    change (uniq (sort_bytes [])) with (@nil N). rewrite app_nil_r, norm_norm, orb_diag, orb_false_r. split; [|reflexivity].
    f_equal. transitivity (norm (norm e)); [|apply norm_norm]. apply norm_ext.
    intros x; rewrite in_app_iff; tauto. }
  intros a b c Ha Hb Hc. split; [|split; [|split; [|apply I; auto]]].
  - exists (r_esc a ++ r_esc b), (r_nt a || r_nt b). rewrite restr_or_eq. reflexivity.
  - rewrite !restr_or_eq; cbn. rewrite orb_assoc. f_equal. apply norm_ext.
    intros x. rewrite !in_app_iff, !norm_in, !in_app_iff. tauto.
  - rewrite !restr_or_eq. rewrite orb_comm. f_equal. apply norm_ext. intros x. rewrite !in_app_iff. tauto.
Qed.
Print Assumptions restrictions_semilattice.
Theorem restrictions_union : forall a b x,
  (In x (r_esc (restr_or a b)) <-> In x (r_esc a) \/ In x (r_esc b)) /\
  (r_nt (restr_or a b) = true <-> r_nt a = true \/ r_nt b = true).
Proof.
  intros. rewrite restr_or_eq; cbn. rewrite norm_in, in_app_iff, orb_true_iff. tauto.
Qed.
Print Assumptions restrictions_union.
Theorem restrictions_tests : forall a b,
  (restr_eq a b = true <-> a = b) /\
  has_restrictions a = negb (has_no_restrictions a) /\
  (has_no_restrictions a = true <-> (forall x, ~ In x (r_esc a)) /\ r_nt a = false) /\
  (has_escape_restrictions a = true <-> exists x, In x (r_esc a)).
Proof.
  intros a b. split; [apply restr_eq_spec_pf|]. split; [reflexivity|].
  unfold has_no_restrictions, has_escape_restrictions, has_no_escape_restrictions.
  destruct a as [[|z e] n]; cbn.
  - split; [destruct n; simpl; intuition discriminate|]. split; [discriminate|intros [x []]].
  - split; [|split; eauto]. split; [discriminate|]. intros [H _]. exfalso. apply (H z). left; auto.
Qed.
Print Assumptions restrictions_tests.
