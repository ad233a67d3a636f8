(** Property C19: the lcpcomp decode strategies resolve any acyclic factorisation. *)
From Verif Require Import Base BitIO IntCodes IntCodesProofs Coders CodersProofs LooseCoders
  LZSS LZSSSpec LZSSProofs LCPDec LCPDecProofs.
Local Open Scope nat_scope.

(** position p is copied from position s *)
Definition refers (fs : list factor) (p s : nat) : Prop :=
  exists f j, In f fs /\ j < f_len f /\ p = f_pos f + j /\ s = f_src f + j.
Lemma refers_fun n fs : forall q, factors_ok q n fs -> forall p s s', refers fs p s -> refers fs p s' -> s = s'.
Proof.
  induction fs as [|f fs IH]; intros q Hok p s s' (g & j & Hg & Hj & -> & ->) (g' & j' & Hg' & Hj' & E & ->).
  - destruct Hg.
  - destruct Hok as (H1 & H2 & H3 & H4).
    destruct Hg as [<-|Hg], Hg' as [<-|Hg'].
    + lia.
    + destruct (factors_ok_in _ _ _ _ H4 Hg'). lia.
    + destruct (factors_ok_in _ _ _ _ H4 Hg). lia.
    + eapply (IH _ H4 (f_pos g + j)); [exists g, j|exists g', j']; auto.
Qed.
Lemma refers_in fs f j : In f fs -> j < f_len f -> refers fs (f_pos f + j) (f_src f + j).
Proof. intros H1 H2. exists f, j. auto. Qed.
Lemma refers_cov fs x s : refers fs x s -> exists f, In f fs /\ f_pos f <= x < f_pos f + f_len f.
Proof. intros (f & j & H1 & H2 & -> & ->). exists f. split; auto. lia. Qed.
Lemma refers_bound n fs p s : factors_ok 0 n fs -> refers fs p s -> p < n /\ s < n.
Proof. intros Hok (f & j & H1 & H2 & -> & ->). destruct (factors_ok_in _ _ _ _ Hok H1). lia. Qed.
Lemma rank_bound (rank : nat -> nat) n : exists R, forall p, p < n -> rank p < R.
Proof.
  exists (S (list_max (map rank (seq 0 n)))). intros p Hp.
  pose proof (proj1 (list_max_le (map rank (seq 0 n)) _) (le_n _)) as F. rewrite Forall_forall in F.
  specialize (F (rank p)). rewrite in_map_iff in F. specialize (F (ex_intro _ p (conj eq_refl (proj2 (in_seq _ _ _) (conj (Nat.le_0_l _) Hp))))). lia.
Qed.

(** C19. Given the literals and factors (pointing left or right) of any text such that
    following references strictly decreases some rank - i.e. there is no cycle -, the
    compact, queue-list and multimap decoders output the text.  The multimap decoder
    does so for every number of lazy rounds and whichever of several equal keys
    unordered_multimap::find returns.  [fuel] bounds the recursion depth. *)
Theorem lcpcomp_decoders_correct : forall text fs rank,
  factors_ok 0 (length text) fs -> spells text fs -> descends rank fs ->
  exists depth, forall fuel, depth <= fuel ->
    let es := events text (length text) 0 fs in
    compact_dec fuel (length text) es = Some text /\
    queue_dec fuel (length text) es = Some text /\
    (forall pick lazy, picker_ok pick -> multimap_dec pick lazy fuel (length text) es = Some text).
Proof.
  intros text fs rank Hok Hs Hd. destruct (rank_bound rank (length text)) as [R HR]. exists R. intros fuel Hf es.
  assert (H1 : forall p s, refers fs p s -> nth_error text p = nth_error text s).
  { intros p s (f & j & A & B & -> & ->). symmetry. apply Hs; auto. }
  assert (H2 : forall p s, refers fs p s -> rank s < rank p) by (intros p s (f & j & A & B & -> & ->); apply Hd; auto).
  pose proof (fun p s => refers_bound _ _ p s Hok) as H3. pose proof (refers_fun _ _ _ Hok) as H4.
  split; [|split].
  - eapply (dec_direct_ok text true (refers fs) rank R); eauto using refers_in.
  - eapply (dec_direct_ok text false (refers fs) rank R); eauto using refers_in.
  - intros pick lazy Hp. eapply (multimap_dec_ok text false (refers fs) rank R); eauto using refers_in, refers_cov.
Qed.
Print Assumptions lcpcomp_decoders_correct.

(** C19. The scan decoder, for every number of scans, on texts that end in their only NUL
    byte (what lcpcomp's input restrictions guarantee). *)
Theorem lcpcomp_scan_correct : forall body fs rank scans,
  let text := body ++ [0%N] in
  Forall (fun c => c <> 0%N) body ->
  factors_ok 0 (length text) fs -> spells text fs -> descends rank fs ->
  exists depth, forall fuel, depth <= fuel ->
    scan_dec scans fuel (length text) (events text (length text) 0 fs) = Some text.
Proof.
  intros body fs rank scans text Hb Hok Hs Hd. destruct (rank_bound rank (length text)) as [R HR]. exists R. intros fuel Hf.
  assert (H1 : forall p s, refers fs p s -> nth_error text p = nth_error text s).
  { intros p s (f & j & A & B & -> & ->). symmetry. apply Hs; auto. }
  assert (H2 : forall p s, refers fs p s -> rank s < rank p) by (intros p s (f & j & A & B & -> & ->); apply Hd; auto).
  assert (HL : length text = length body + 1) by (unfold text; rewrite app_length; auto).
  eapply (scan_dec_ok text true (refers fs) rank R); eauto using refers_in, refers_cov, refers_bound.
  - apply (refers_fun _ _ _ Hok).
  - lia.
  - unfold val. rewrite HL. unfold text. rewrite app_nth2 by lia. replace (length body + 1 - 1 - length body) with 0 by lia. auto.
  - intros p Hp. unfold val, text. rewrite app_nth1 by lia. rewrite Forall_forall in Hb. apply Hb. apply nth_In. lia.
Qed.
Print Assumptions lcpcomp_scan_correct.

(** C19 with the coding around it: compress a terminated text with any acyclic
    factorisation (flattened or not) and any simple coder, decompress with any of the
    four strategies. *)
Theorem lcpcomp_roundtrip : forall k body fs rank,
  let text := body ++ [0%N] in
  bytes_ok body -> Forall (fun c => c <> 0%N) body -> (nn (length text) < 2 ^ 32)%N ->
  factors_ok 0 (length text) fs -> spells text fs -> descends rank fs ->
  exists depth fs', flatten depth fs = Some fs' /\
  forall gs, gs = fs \/ gs = fs' ->
  exists f, lzss_encode (simple_coder k) text gs = Some f /\
    forall fuel, depth <= fuel ->
      lcp_decompress (simple_coder k) fuel (compact_dec fuel) f = Some text /\
      lcp_decompress (simple_coder k) fuel (queue_dec fuel) f = Some text /\
      (forall scans, lcp_decompress (simple_coder k) fuel (scan_dec scans fuel) f = Some text) /\
      (forall pick lazy, picker_ok pick ->
         lcp_decompress (simple_coder k) fuel (multimap_dec pick lazy fuel) f = Some text).
Proof.
  intros k body fs rank text Hb Hnz Hn Hok Hs Hd. destruct (rank_bound rank (length text)) as [R HR].
  exists (Nat.max R (S (length text))).
  destruct (flatten_pf rank (length text) fs (Nat.max R (S (length text))) Hok Hd) as (fs' & E & Sh & Ok' & D' & Sp').
  { intros p Hp. specialize (HR p Hp). lia. }
  exists fs'. split; auto. intros gs Hgs.
  assert (G : factors_ok 0 (length text) gs /\ spells text gs /\ descends rank gs).
  { destruct Hgs as [->| ->]; auto. }
  destruct G as (Gok & Gs & Gd).
  destruct (decode_events_pf (fun _ => True) (simple_ex k) (simple_coder k) text gs) as (f & E1 & E2); auto.
  { apply simple_coder_loose. }
  { apply call_ok_simple_ex. }
  { apply Forall_app. split; auto. repeat constructor; unfold byte_ok; lia. }
  exists f. split; auto. intros fuel Hf. unfold lcp_decompress.
  rewrite E2 by (pose proof (factors_ok_len _ _ _ Gok); lia). cbn [obind]. rewrite Nat2N.id.
  assert (H1 : forall p s, refers gs p s -> nth_error text p = nth_error text s).
  { intros p s (g & j & A & B & -> & ->). symmetry. apply Gs; auto. }
  assert (H2 : forall p s, refers gs p s -> rank s < rank p) by (intros p s (g & j & A & B & -> & ->); apply Gd; auto).
  pose proof (fun p s => refers_bound _ _ p s Gok) as H3. pose proof (refers_fun _ _ _ Gok) as H4.
  assert (HL : length text = length body + 1) by (unfold text; rewrite app_length; auto).
  assert (HRf : R <= fuel) by lia.
  split; [|split; [|split]].
  - eapply (dec_direct_ok text true (refers gs) rank R); eauto using refers_in.
  - eapply (dec_direct_ok text false (refers gs) rank R); eauto using refers_in.
  - intros scans. eapply (scan_dec_ok text true (refers gs) rank R); eauto using refers_in, refers_cov.
    + lia.
    + unfold val. rewrite HL. unfold text. rewrite app_nth2 by lia. replace (length body + 1 - 1 - length body) with 0 by lia. auto.
    + intros p Hp. unfold val, text. rewrite app_nth1 by lia. rewrite Forall_forall in Hnz. apply Hnz. apply nth_In. lia.
  - intros pick lazy Hp. eapply (multimap_dec_ok text false (refers gs) rank R); eauto using refers_in, refers_cov.
Qed.
Print Assumptions lcpcomp_roundtrip.

(** Without the terminator the scan decoder reads the last, uninitialised bucket
    pointer: "aaaaaaaaa" with factors copying from the right neighbour, default 6 scans. *)
Definition chain_events : list event := map (fun i => EFac (nn (S i)) 1) (seq 0 8) ++ [ELit 97].
Theorem scan_unterminated_refuted :
  chain_events = events (repeat 97%N 9) 9 0 (map (fun i => mk_f i (S i) 1) (seq 0 8)) /\
  (forall fuel, scan_dec 6 fuel 9 chain_events = None).
Proof.
  split; [reflexivity|]. intros fuel. unfold scan_dec.
  set (s := keep_run true 0 chain_events (b_init 9, [])). vm_compute in s. subst s. cbn [obind].
  set (s := lazy_rounds _ _ _ _). vm_compute in s. subst s. cbn [obind].
  set (s := eager_slot _). destruct fuel as [|[|fuel]]; vm_compute; reflexivity.
Qed.
Print Assumptions scan_unterminated_refuted.

(** Non-vacuity: references in both directions, a chain, the default scans. *)
Definition ex_fs := [mk_f 0 4 2; mk_f 2 0 2; mk_f 6 4 2].
Definition ex_text : list N := [97; 98; 97; 98; 97; 98; 97; 98; 0]%N.
Definition ex_rank (p : nat) : nat := nth p [1; 1; 2; 2; 0; 0; 1; 1; 0] 0.
Example lcp_ex : factors_ok 0 9 ex_fs /\ spells ex_text ex_fs /\ descends ex_rank ex_fs.
Proof.
  split; [simpl; lia|]. split.
  - intros f j [<-|[<-|[<-|[]]]] Hj; simpl in Hj; do 2 (destruct j as [|j]; [reflexivity|]); lia.
  - intros f j [<-|[<-|[<-|[]]]] Hj; simpl in Hj; do 2 (destruct j as [|j]; [unfold ex_rank; simpl; lia|]); lia.
Qed.
Definition first_pick : picker := fun m k => option_map snd (find (fun e => fst e =? k) m).
Example first_pick_ok : picker_ok first_pick.
Proof.
  intros m k. unfold first_pick. destruct (find _ m) as [[a b]|] eqn:E; cbn [option_map snd].
  - apply find_some in E. destruct E as [A B]. apply Nat.eqb_eq in B. simpl in B. subst. auto.
  - intros v Hv. pose proof (find_none _ _ E _ Hv) as X. simpl in X. rewrite Nat.eqb_refl in X. discriminate.
Qed.
Example lcp_run_ex : let es := events ex_text 9 0 ex_fs in
  compact_dec 5 9 es = Some ex_text /\ queue_dec 5 9 es = Some ex_text /\ scan_dec 0 5 9 es = Some ex_text /\
  scan_dec 6 5 9 es = Some ex_text /\ multimap_dec first_pick 0 5 9 es = Some ex_text.
Proof. vm_compute. auto. Qed.
