(** Property C49: every access to an Input delivers the same bytes. *)
From Verif Require Import Base Escape EscapeProofs PropEscape InputObj InputSpec InputProofs.
Local Open Scope nat_scope.

(** C49, memory and files.  However an Input was narrowed and restricted, its view, its
    stream and its size describe the bytes that are meant; for a file the stream, and
    the size under restrictions, need a range without an end. *)
Theorem input_accesses_agree : forall dbg src data steps,
  src = SView data \/ src = SFile data -> bytes_ok data -> proper false data steps ->
  let (d, r) := meant data (mk_restrictions [] false) steps in
  let i := derive (input_of src) steps in
  usable r ->
  exists b, shows r d b /\ as_view i = Some b /\
    (src = SView data \/ i_to i = None -> as_stream dbg i = Some b) /\
    (src = SView data \/ i_to i = None \/ has_no_restrictions r = true -> in_size dbg i = Some (length b)).
Proof.
  intros dbg src data steps Hs Hd P.
  assert (R0 : in_range data (i_from (input_of src)) (i_to (input_of src))) by (split; cbn; lia).
  assert (PD : part data (i_from (input_of src)) (i_to (input_of src)) = data).
  { cbn [input_of i_from i_to]. rewrite part_tail by (split; lia). reflexivity. }
  destruct (derive_ok steps data (input_of src) R0) as (D1 & D2 & D3); [rewrite PD; exact P|].
  rewrite PD in D3. cbn [input_of i_restr] in D3. rewrite D3.
  intros i U. fold i in D1, D2, D3, U |- *.
  assert (Hp : bytes_ok (part data (i_from i) (i_to i))) by (apply bytes_part; auto).
  destruct (all_agree (i_restr i) (part data (i_from i) (i_to i))
    (fun k => nth (i_from i + length (part data (i_from i) (i_to i)) + k) data 0%N) U Hp) as (b & B1 & B2 & B3 & B4 & _).
  exists b. split; auto. cbn [i_src] in D1. unfold as_view, as_stream, in_size. rewrite D1. change (i_src (input_of src)) with src.
  assert (PS : has_no_restrictions (i_restr i) = true -> plain_size i data = Some (length b)).
  { intros X. rewrite (B4 X), part_length by auto. unfold plain_size. destruct D2 as [X1 _]. apply Nat.leb_le in X1.
    rewrite X1. reflexivity. }
  assert (FS : i_to i = None -> file_stream dbg i data = Some b).
  { intros X. unfold file_stream. rewrite X in *. rewrite part_tail in B3 by auto. auto. }
  destruct Hs as [-> | ->].
  - unfold mem_view, mem_size, mem_stream. rewrite vslice_part by auto. cbn [obind]. rewrite B1, B3. cbn [obind].
    repeat split; auto. intros _. destruct (has_no_restrictions (i_restr i)); auto.
  - unfold file_view, file_size. rewrite vslice_part by auto. cbn [obind]. repeat split; auto.
    + intros [X|X]; [discriminate|auto].
    + intros [X|[X|X]]; [discriminate| |].
      * destruct (has_no_restrictions (i_restr i)); auto. rewrite FS by auto. reflexivity.
      * rewrite X. auto.
Qed.
Print Assumptions input_accesses_agree.
Example input_accesses_ex :
  let steps := [Narrow 1 None; Restrict (mk_restrictions [0%N] true); Narrow 1 (Some 3)] in
  proper false [9; 8; 0; 7; 6]%N steps /\
  meant [9; 8; 0; 7; 6]%N (mk_restrictions [] false) steps = ([0; 7]%N, mk_restrictions [0%N] true) /\
  as_view (derive (input_of (SView [9; 8; 0; 7; 6]%N)) steps) = Some [255; 254; 7; 0]%N.
Proof. vm_compute. repeat split; try lia; auto; discriminate. Qed.

(** The excluded derivation: narrowing without an end an Input that has one reads on
    behind that end, up to the end of the source. *)
Theorem tail_of_bounded_slice_refuted : forall data a b c, bytes_ok data -> a <= b -> b < length data -> a + c <= b ->
  let i := in_slice (in_slice (input_of (SView data)) a (Some b)) c None in
  as_view i = Some (part (part data a (Some b)) c None ++ skipn b data) /\ skipn b data <> [].
Proof.
  intros data a b c Hd H1 H2 H3 i. assert (R : in_range data (a + c) None) by (split; lia).
  unfold as_view, i. cbn [in_slice i_src input_of]. unfold mem_view. cbn [in_slice i_from i_to i_restr input_of].
  rewrite vslice_part by exact R. cbn [obind].
  destruct (all_agree (mk_restrictions [] false) (part data (a + c) None) (fun _ => 0%N)) as (x & X1 & _ & _ & X4 & _).
  { exists [], false. split; auto. split; [constructor|left; auto]. }
  { apply bytes_part; auto. }
  cbn [Nat.add]. rewrite X1, (X4 eq_refl). split.
  - f_equal. rewrite part_tail by exact R. rewrite part_tail.
    2: { split; [rewrite part_length by (split; lia)|]; lia. }
    unfold part. rewrite skipn_firstn_comm.
    assert (SK : forall (l : list N) x y, skipn x (skipn y l) = skipn (y + x) l).
    { clear. induction l as [|z l IH]; intros x [|y]; simpl; auto. destruct x; auto. }
    rewrite SK. replace (skipn b data) with (skipn (b - a - c) (skipn (a + c) data)) by (rewrite SK; f_equal; lia).
    symmetry. apply firstn_skipn.
  - intros X. assert (Y : length (skipn b data) = 0) by (rewrite X; auto). rewrite skipn_length in Y. lia.
Qed.
Print Assumptions tail_of_bounded_slice_refuted.
(** and the size of a restricted range of a file, in a build without DCHECKs, is counted to the end of the file. *)
Theorem bounded_file_size_refuted : forall data a b r, bytes_ok data -> usable r -> has_restrictions r = true ->
  a <= length data ->
  let i := in_restrict (in_slice (input_of (SFile data)) a (Some b)) r in
  in_size true i = None /\
  exists x, shows r (part data a None) x /\ in_size false i = Some (length x).
Proof.
  intros data a b r Hd U HR Ha i. assert (RR : restr_or (mk_restrictions [] false) r = r).
  { destruct U as (e & n & -> & _). destruct (restrictions_semilattice (mk_restrictions [] false) (mk_restrictions e n)
      (mk_restrictions [] false)) as (_ & _ & C & _); try (eexists _, _; reflexivity). rewrite C.
    destruct (restrictions_semilattice (mk_restrictions e n) (mk_restrictions e n)
      (mk_restrictions [] false)) as (_ & _ & _ & _ & D); try (eexists _, _; reflexivity). exact D. }
  unfold in_size, i. cbn [in_restrict in_slice i_src input_of]. unfold file_size, file_stream.
  cbn [in_restrict in_slice i_src input_of i_restr i_to i_from]. rewrite RR.
  destruct (restrictions_tests r r) as (_ & T & _). rewrite T in HR. apply negb_true_iff in HR. rewrite HR.
  split; [reflexivity|]. cbn [Nat.add].
  destruct (all_agree r (part data a None) (fun _ => 0%N) U) as (x & X1 & _ & X3 & _); [apply bytes_part; auto|].
  exists x. split; auto. rewrite part_tail in X3 by (split; lia). rewrite X3. reflexivity.
Qed.
Print Assumptions bounded_file_size_refuted.

(** C49, streams: over every history of opening views and streams, asking for sizes and
    closing, in any order and on any ranges and restrictions of one stream, the
    program aborts exactly if the restrictions change while something is open, and
    otherwise every answer is right. *)
Theorem stream_history : forall data l, bytes_ok data -> good_history data [] l ->
  (no_conflict None [] l -> exists st xs, do_accesses data pool0 l = Some (st, xs) /\ Forall2 (right_answer data) l xs) /\
  (~ no_conflict None [] l -> do_accesses data pool0 l = None).
Proof.
  intros data l Hd G. split.
  - intros C. apply (history_ok data l Hd pool0 (pool0_ok data) G C).
  - intros C. destruct (do_accesses data pool0 l) as [x|] eqn:E; auto. exfalso. apply C.
    apply (history_conflict data l Hd pool0 x (pool0_ok data) G E).
Qed.
Print Assumptions stream_history.
Example stream_history_ex :
  let r := mk_restrictions [0%N] true in
  let l := [AStream 0 0 None (mk_restrictions [] false); AClose 0; AView 1 2 None r; AView 2 2 None r; ASize 2 None r;
            AClose 1; AView 3 0 None r] in
  good_history [65; 0; 66; 0]%N [] l /\ no_conflict None [] l /\
  option_map snd (do_accesses [65; 0; 66; 0]%N pool0 l) =
    Some [RBytes [65; 0; 66; 0]; RDone; RBytes [66; 255; 254; 0]; RBytes [66; 255; 254; 0]; RSize 4; RDone;
          RBytes [65; 255; 254; 66; 255; 254; 0]]%N.
Proof.
  assert (U : usable (mk_restrictions [0%N] true)).
  { exists [0%N], true. split; auto. split; [repeat constructor|apply six_escape_bytes_suffice; cbn; lia]. }
  assert (U0 : usable (mk_restrictions [] false)) by (exists [], false; repeat split; [constructor|left; auto]).
  cbv zeta. split; [|split; [|vm_compute; reflexivity]].
  - cbn [good_history remove Nat.eq_dec]. unfold good_request, in_range.
    repeat match goal with
    | |- _ /\ _ => split
    | |- True => exact I
    | |- usable _ => assumption
    | |- _ <= _ => cbn; lia
    | |- _ -> _ = None => auto
    | |- _ => idtac
    end; try (cbn; intuition (try discriminate); fail); cbn; try lia; try tauto.
    all: try (intros; discriminate).
    all: try (intros _; right; split; [left; lia|split; [intros ? X; discriminate|intros [X|[X|[]]]; discriminate]]).
  - cbn. repeat split; intros; try congruence.
Qed.

(** Outside the good requests, with any forbidden bytes: a range from the end of the
    stream shows the whole stream; the range from the start up to the end of the stream
    shows nothing. *)
Theorem stream_end_ranges_refuted : forall data r h, bytes_ok data -> usable r -> r_esc r <> [] -> r_nt r = false ->
  data <> [] -> ~ In (escape_byte_of r) data ->
  (exists st b, do_access data pool0 (AView h (length data) None r) = Some (st, RBytes b) /\
     shows r data b /\ b <> [] /\ shows r (part data (length data) None) []) /\
  (exists st, do_access data pool0 (AView h 0 (Some (length data)) r) = Some (st, RBytes []) /\
     ~ shows r (part data 0 (Some (length data))) []).
Proof.
  intros data r h Hd U Hne NT Hdn Hn. destruct (usable_good r U) as (m & M & G).
  destruct (escape_byte_ok r m U Hne M) as [EB _].
  destruct (all_agree r data (fun _ => 0%N) U Hd) as (v & V1 & _ & _ & _ & V5).
  assert (VE : v = escape m data).
  { rewrite (restrict_view_pf r m) in V1 by auto. injection V1 as <-. rewrite (restricted_eq r m) by auto. rewrite NT. cbn [terminator]. apply app_nil_r. }
  assert (L : length data <> 0) by (destruct data; [congruence|discriminate]).
  assert (Lv : length data <= length v) by (rewrite VE; apply escape_ge).
  assert (NE : has_no_escape_restrictions r = false).
  { destruct (has_no_escape_restrictions r) eqn:X; auto. apply noesc_nil in X. congruence. }
  rewrite <- EB in Hn.
  pose proof (scan_escape r m (em_escape_byte m) data U Hne M G eq_refl Hd Hn [] 0 0) as S1.
  rewrite app_nil_r in S1. cbn [Nat.add scan] in S1. rewrite <- VE in S1.
  split.
  - unfold do_access, find_or_construct. cbn [pool0 p_root p_kids p_open p_next]. rewrite V5. cbn [obind].
    replace ((length data =? 0) && same_to None None) with false by (apply Nat.eqb_neq in L; rewrite L; reflexivity).
    unfold slice_root. rewrite NE, M. cbn [obind]. rewrite S1. cbn [obind]. rewrite andb_false_r.
    rewrite vslice_part by (split; lia). rewrite part_tail by (split; lia). cbn [skipn obind].
    eexists _, v. split; [reflexivity|]. split; [exact V1|]. split; [intros ->; cbn [length] in Lv; lia|].
    unfold shows. rewrite part_tail by (split; lia). rewrite skipn_all.
    rewrite (restrict_view_pf r m) by (auto; constructor). rewrite (restricted_eq r m) by auto. rewrite NT. reflexivity.
  - unfold do_access, find_or_construct. cbn [pool0 p_root p_kids p_open p_next]. rewrite V5. cbn [obind].
    replace ((0 =? 0) && same_to (Some (length data)) None) with false by reflexivity.
    unfold slice_root. rewrite NE, M. cbn [obind].
    assert (Vn : v <> []) by (intros ->; cbn [length] in Lv; lia).
    rewrite (scan_hit v (em_escape_byte m) 0 0 Vn). rewrite S1. cbn [obind]. rewrite NT. cbn [andb].
    rewrite vslice_part by (split; lia). cbn [obind]. eexists. split; [reflexivity|].
    unfold shows, part. rewrite Nat.sub_0_r. cbn [skipn]. rewrite firstn_all. rewrite V1. congruence.
Qed.
Print Assumptions stream_end_ranges_refuted.
(** and a text that contains the escape byte itself is sliced at the wrong position. *)
Theorem stream_escape_byte_refuted : exists data f r h st b, bytes_ok data /\ usable r /\ f < length data /\
  do_access data pool0 (AView h f None r) = Some (st, RBytes b) /\ ~ shows r (part data f None) b.
Proof.
  exists [255; 97; 98]%N, 1, (mk_restrictions [0%N] false), 0.
  eexists _, _. split; [repeat constructor|]. split.
  { exists [0%N], false. split; auto. split; [repeat constructor|apply six_escape_bytes_suffice; cbn; lia]. }
  split; [cbn; lia|]. split; [vm_compute; reflexivity|]. vm_compute. discriminate.
Qed.
Print Assumptions stream_escape_byte_refuted.
