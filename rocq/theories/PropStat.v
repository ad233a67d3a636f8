(** C48: the memory and time statistics. *)
From Coq Require Import ZArith.
From Verif Require Import Base Json JsonSpec PropJson Stat StatSpec.
Local Open Scope Z_scope.

Lemma total_app a b : total (a ++ b) = total a + total b.
Proof. induction a as [|x a IH]; cbn [app total fold_right]; [reflexivity|]. fold (total (a ++ b)). fold (total a). lia. Qed.
Lemma max_prefix_nonneg ds : 0 <= max_prefix ds.
Proof. destruct ds; cbn [max_prefix]; lia. Qed.
Lemma max_prefix_app a : forall b, max_prefix (a ++ b) = Z.max (max_prefix a) (total a + max_prefix b).
Proof.
  induction a as [|x a IH]; intros b; cbn [app max_prefix total fold_right].
  - pose proof (max_prefix_nonneg b). lia.
  - rewrite IH. fold (total a). lia.
Qed.
Lemma max_prefix_ge_total ds : total ds <= max_prefix ds.
Proof. induction ds as [|x r IH]; cbn [total max_prefix fold_right]; [lia|]. fold (total r). lia. Qed.
Theorem max_prefix_spec : forall ds,
  (forall k, total (firstn k ds) <= max_prefix ds) /\ exists k, total (firstn k ds) = max_prefix ds.
Proof.
  induction ds as [|x r [IH1 [k IH2]]]; cbn [max_prefix].
  - split; [intros k; rewrite firstn_nil; cbn; lia|exists O; reflexivity].
  - split.
    + intros [|n]; cbn [firstn total fold_right]; [lia|]. specialize (IH1 n). fold (total (firstn n r)). lia.
    + destruct (Z_le_gt_dec 0 (x + max_prefix r)).
      * exists (S k). cbn [firstn total fold_right]. fold (total (firstn k r)). lia.
      * exists O. cbn. lia.
Qed.
Print Assumptions max_prefix_spec.

(** ** the effect of a sequence of memory changes on a chain of tracking phases *)
Definition bump (ds : list Z) (p : phase) : phase :=
  let d := p_data p in
  mk_phase (PD (d_title d) (d_start d) (d_end d) (d_off d) (d_cur d + total ds)
               (Z.max (d_peak d) (d_cur d + max_prefix ds)) (d_stats d) (d_sub d)) (p_track p).
Definition okp (p : phase) : Prop := p_track p = true /\ d_cur (p_data p) <= d_peak (p_data p).
Lemma bump_nil p : okp p -> bump [] p = p.
Proof.
  intros (E & H). destruct p as [d t]. destruct d. cbn in *. unfold bump. cbn.
  rewrite !Z.add_0_r, Z.max_l by lia. reflexivity.
Qed.
Lemma bump_ok ds p : okp p -> okp (bump ds p).
Proof.
  intros (E & H). split; [exact E|]. cbn. pose proof (max_prefix_ge_total ds). lia.
Qed.
Lemma bump_bump a b p : bump b (bump a p) = bump (a ++ b) p.
Proof.
  unfold bump. cbn [p_data d_title d_start d_end d_off d_cur d_peak d_stats d_sub p_track].
  rewrite total_app, max_prefix_app. f_equal. f_equal; [|pose proof (max_prefix_nonneg b)]; lia.
Qed.
Lemma map_bump_bump a b s : map (bump b) (map (bump a) s) = map (bump (a ++ b)) s.
Proof. rewrite map_map. apply map_ext. intros p. apply bump_bump. Qed.
Lemma map_bump_ok ds s : Forall okp s -> Forall okp (map (bump ds) s).
Proof. intros H. apply Forall_map. revert H. apply Forall_impl. intros p. apply bump_ok. Qed.
Lemma map_bump_nil s : Forall okp s -> map (bump []) s = s.
Proof. induction 1; cbn [map]; [reflexivity|]. rewrite bump_nil by auto. f_equal; auto. Qed.

Lemma track_alloc_ok n s : 0 <= n -> Forall okp s -> track_alloc n s = map (bump [n]) s.
Proof.
  intros Hn. induction 1 as [|p s [E H] Hs IH]; cbn [track_alloc map]; [reflexivity|].
  rewrite E, IH. f_equal. unfold add_mem, bump. cbn [total fold_right max_prefix]. f_equal. f_equal; lia.
Qed.
Lemma track_free_ok n s : 0 < n -> Forall okp s -> track_free n s = map (bump [-n]) s.
Proof.
  intros Hn. induction 1 as [|p s [E H] Hs IH]; cbn [track_free map]; [reflexivity|].
  rewrite E, IH. f_equal. unfold sub_mem, bump. cbn [total fold_right max_prefix]. f_equal. f_equal; lia.
Qed.
Lemma step_mem d s : Forall okp s -> step (mem_op d) s = Some (map (bump [d]) s).
Proof.
  intros H. unfold mem_op. destruct (0 <=? d) eqn:E; cbn [step].
  - rewrite track_alloc_ok by (auto; lia). reflexivity.
  - rewrite track_free_ok by (auto; lia). rewrite Z.opp_involutive. reflexivity.
Qed.
Lemma steps_app a : forall b s, steps (a ++ b) s = do s <- steps a s; steps b s.
Proof. induction a as [|o a IH]; intros b s; cbn [app steps]; [reflexivity|]. destruct (step o s); cbn [obind]; auto. Qed.
Lemma steps_paused ds : forall p s, p_track p = false -> steps (map mem_op ds) (p :: s) = Some (p :: s).
Proof.
  induction ds as [|d ds IH]; intros p s E; cbn [map steps]; [reflexivity|].
  assert (step (mem_op d) (p :: s) = Some (p :: s)) as ->.
  { unfold mem_op. destruct (0 <=? d); cbn [step track_alloc track_free]; rewrite E; reflexivity. }
  cbn [obind]. auto.
Qed.

(** the current phase after [l] *)
Definition after (l : list ev) (p : phase) : phase :=
  let q := bump (flat_map deltas l) p in
  let d := p_data q in
  mk_phase (PD (d_title d) (d_start d) (d_end d) (d_off d) (d_cur d) (d_peak d)
               (d_stats d ++ flat_map logged l) (d_sub d ++ spec_subs (d_cur (p_data p)) l)) (p_track q).

Fixpoint ev_size (e : ev) : nat :=
  match e with
  | EPhase _ _ _ body => S ((fix go l := match l with [] => O | x :: r => (ev_size x + go r)%nat end) body)
  | _ => 1%nat
  end.
Fixpoint evs_size (l : list ev) : nat := match l with [] => O | x :: r => (ev_size x + evs_size r)%nat end.
Lemma ev_size_phase t a b body : ev_size (EPhase t a b body) = S (evs_size body).
Proof. reflexivity. Qed.
Lemma ev_size_pos e : (1 <= ev_size e)%nat.
Proof. destruct e; cbn [ev_size]; lia. Qed.
Lemma spec_phase_body off t a b body :
  spec_phase off (EPhase t a b body) =
  [PD t a b off (total (flat_map deltas body)) (max_prefix (flat_map deltas body)) (flat_map logged body) (spec_subs 0 body)].
Proof.
  reflexivity.
Qed.
Lemma after_ok l p : okp p -> okp (after l p).
Proof. intros H. apply (bump_ok (flat_map deltas l)) in H. destruct H. split; auto. Qed.

Lemma run_ok : forall n l p s, (evs_size l <= n)%nat -> okp p -> Forall okp s ->
  steps (flat_map ev_ops l) (p :: s) = Some (after l p :: map (bump (flat_map deltas l)) s).
Proof.
  induction n as [n IHn] using lt_wf_ind. intros l. revert n IHn.
  induction l as [|e l IHl]; intros n IHn p s Hn Hp Hs.
  - cbn [flat_map steps map]. rewrite map_bump_nil by auto. unfold after. cbn [flat_map spec_subs].
    rewrite bump_nil by auto. rewrite !app_nil_r. destruct p as [[] ?]; reflexivity.
  - cbn [evs_size] in Hn. pose proof (ev_size_pos e) as Hpos. cbn [flat_map]. rewrite steps_app.
    assert (Ee : steps (ev_ops e) (p :: s) = Some (after [e] p :: map (bump (deltas e)) s)).
    { destruct e as [d|ds|k v|t a b body].
      - cbn [ev_ops steps]. rewrite step_mem by (constructor; auto). cbn [obind map deltas].
        unfold after. cbn [flat_map deltas logged spec_subs spec_phase app]. rewrite !app_nil_r. reflexivity.
      - cbn [ev_ops deltas]. rewrite map_bump_nil by auto. cbn [steps step pause obind]. rewrite steps_app, steps_paused by reflexivity.
        cbn [obind steps step resume]. unfold after. cbn [flat_map deltas app logged spec_subs spec_phase].
        rewrite bump_nil by auto. rewrite !app_nil_r. destruct Hp as [E _]. destruct p as [[] ?]. cbn in E. subst. reflexivity.
      - cbn [ev_ops deltas steps step obind]. rewrite map_bump_nil by auto.
        unfold after. cbn [flat_map deltas app logged spec_subs spec_phase].
        rewrite bump_nil by auto. rewrite !app_nil_r. destruct Hp as [E _]. destruct p as [[] ?]. cbn in E. subst. reflexivity.
      - cbn [ev_ops deltas]. cbn [steps step init resume obind]. rewrite steps_app.
        rewrite ev_size_phase in Hn.
        assert (Hp' : okp (set_track true p)) by (destruct Hp; split; auto).
        rewrite (IHn (evs_size body)) by (solve [lia | constructor; auto | split; cbn; auto; lia]).
        cbn [obind steps step pause map finish]. cbn [obind]. f_equal. f_equal.
        unfold after, add_child, set_end, set_track.
        cbn [flat_map deltas logged app]. rewrite app_nil_r. cbn [spec_subs]. rewrite app_nil_r, spec_phase_body.
        destruct Hp as [E Hc]. destruct p as [[ti st en off cu pk sts sb] tr]. cbn in E, Hc. subst tr.
        cbn [p_data new_data bump d_title d_start d_end d_off d_cur d_peak d_stats d_sub p_track app].
        rewrite !Z.add_0_l. rewrite (Z.max_r 0) by apply max_prefix_nonneg. rewrite ?app_nil_r. reflexivity. }
    rewrite Ee. cbn [obind].
    rewrite (IHl (n - ev_size e)%nat); [|intros m Hm; apply IHn; lia|lia|apply after_ok; auto|apply map_bump_ok; auto].
    rewrite map_bump_bump. f_equal. f_equal.
    unfold after at 2. unfold after. cbn [flat_map spec_subs].
    rewrite !app_nil_r. rewrite <- bump_bump.
    cbn [p_data bump d_title d_start d_end d_off d_cur d_peak d_stats d_sub p_track]. rewrite <- !app_assoc. reflexivity.
Qed.

(** C48. The data of a running root phase after any sequence of events, nested to any depth: final
    value, peak, offsets, statistics and sub phases are as specified. *)
Theorem phase_data_correct : forall title t0 l,
  steps (Start title t0 :: flat_map ev_ops l) [] =
  Some [mk_phase (PD title t0 0 0 (total (flat_map deltas l)) (max_prefix (flat_map deltas l))
                     (flat_map logged l) (spec_subs 0 l)) true].
Proof.
  intros title t0 l. cbn [steps step init resume obind].
  rewrite (run_ok (evs_size l)) by (try constructor; cbn; auto; lia).
  cbn [map]. unfold after. cbn [bump new_data set_track p_data d_title d_start d_end d_off d_cur d_peak d_stats d_sub p_track app].
  rewrite !Z.add_0_l. rewrite Z.max_r by apply max_prefix_nonneg. reflexivity.
Qed.
Print Assumptions phase_data_correct.

(** ** every history *)
(** allocation and free sizes are size_t; clock readings do not decrease from [t] *)
Fixpoint history (t : Z) (os : list op) : Prop :=
  match os with
  | [] => True
  | (Alloc n | Free n) :: r => 0 <= n /\ history t r
  | (Start _ now | End now | Split _ now | Report now) :: r => t <= now /\ history now r
  | _ :: r => history t r
  end.
(** A finished sub phase [c] of a phase with data [par]. *)
Fixpoint consistent (c par : pdata) : Prop :=
  match c with
  | PD _ st en off cur peak _ sub =>
      0 <= peak /\ cur <= peak /\
      off + peak <= d_peak par /\
      d_start par <= st <= en /\
      (fix all l := match l with [] => True | x :: r => consistent x c /\ d_end x <= en /\ all r end) sub
  end.
Lemma consistent_unfold c par : consistent c par <->
  0 <= d_peak c /\ d_cur c <= d_peak c /\ d_off c + d_peak c <= d_peak par /\
  d_start par <= d_start c <= d_end c /\ Forall (fun x => consistent x c /\ d_end x <= d_end c) (d_sub c).
Proof.
  destruct c as [ti st en off cur peak stats sub]. cbn [d_peak d_cur d_off d_start d_end d_sub]. 
  assert (forall c0 l, (fix all l := match l with [] => True | x :: r => consistent x c0 /\ d_end x <= en /\ all r end) l <->
    Forall (fun x => consistent x c0 /\ d_end x <= en) l) as E.
  { intros c0 l. induction l as [|x r IH]; [split; auto|]. rewrite Forall_cons_iff, <- IH. tauto. }
  cbn [consistent]. rewrite E. tauto.
Qed.

(** the invariant: [now] is the latest clock reading *)
Definition good_phase (now : Z) (d : pdata) : Prop :=
  0 <= d_peak d /\ d_cur d <= d_peak d /\ d_start d <= now /\
  Forall (fun x => consistent x d /\ d_end x <= now) (d_sub d).
Fixpoint linked (s : stack) : Prop :=
  match s with
  | p :: ((q :: _) as r) =>
      p_track q = true /\ d_off (p_data p) + d_cur (p_data p) = d_cur (p_data q) /\
      d_off (p_data p) + d_peak (p_data p) <= d_peak (p_data q) /\
      d_start (p_data q) <= d_start (p_data p) /\ linked r
  | _ => True
  end.
Definition good (now : Z) (s : stack) : Prop := Forall (fun p => good_phase now (p_data p)) s /\ linked s.

Lemma consistent_mono c p q : d_peak p <= d_peak q -> d_start q <= d_start p -> consistent c p -> consistent c q.
Proof. intros H1 H2. rewrite !consistent_unfold. intros (A & B & C & D & E). repeat split; auto; lia. Qed.
Lemma good_phase_mono now now' d : now <= now' -> good_phase now d -> good_phase now' d.
Proof.
  intros H (A & B & C & D). split; [|split; [|split]]; auto; [lia|]. revert D. apply Forall_impl. intros x (Hx & Hx'). split; auto. lia.
Qed.
Lemma good_mono now now' s : now <= now' -> good now s -> good now' s.
Proof. intros H (A & B). split; auto. revert A. apply Forall_impl. intros p. apply good_phase_mono; auto. Qed.
(** a phase whose data differs only in figures that grow *)
Lemma good_phase_ext now d d' : good_phase now d -> d_start d' = d_start d -> d_peak d <= d_peak d' ->
  d_cur d' <= d_peak d' -> d_sub d' = d_sub d -> good_phase now d'.
Proof.
  intros (A & B & C & D) E1 E2 E3 E4. split; [|split; [|split]]; try lia. rewrite E4. revert D. apply Forall_impl.
  intros x (Hx & Hx'). split; auto. revert Hx. apply consistent_mono; lia.
Qed.
Definition all_track (s : stack) : Prop := Forall (fun p => p_track p = true) s.
Lemma linked_tail p s : linked (p :: s) -> linked s /\ all_track s.
Proof.
  revert p. induction s as [|q s IH]; intros p H; cbn [linked] in H; [split; constructor|].
  destruct H as (A & B & C & D & E). split; auto. constructor; auto. apply (IH q E).
Qed.
Lemma track_alloc_eq n s : all_track s -> track_alloc n s = map (add_mem n) s.
Proof. induction 1 as [|p s E H IH]; cbn [track_alloc map]; [reflexivity|]. rewrite E, IH. reflexivity. Qed.
Lemma track_free_eq n s : all_track s -> track_free n s = map (sub_mem n) s.
Proof. induction 1 as [|p s E H IH]; cbn [track_free map]; [reflexivity|]. rewrite E, IH. reflexivity. Qed.
Lemma good_alloc now n s : 0 <= n -> good now s -> good now (track_alloc n s).
Proof.
  intros Hn [H1 H2]. destruct s as [|p s]; [split; auto; constructor|].
  destruct (linked_tail _ _ H2) as [_ Ht]. cbn [track_alloc]. destruct (p_track p) eqn:E; [|split; auto].
  rewrite track_alloc_eq by auto. change (add_mem n p :: map (add_mem n) s) with (map (add_mem n) (p :: s)). clear E Ht.
  split.
  - apply Forall_map. revert H1. apply Forall_impl. intros q Hq. eapply good_phase_ext; eauto; cbn; lia.
  - clear H1. revert p H2. induction s as [|q s IH]; intros p; cbn [map linked]; auto.
    intros (A & B & C & D & F). specialize (IH q F). cbn [map] in IH. cbn. repeat split; auto; lia.
Qed.
Lemma good_free now n s : 0 <= n -> good now s -> good now (track_free n s).
Proof.
  intros Hn [H1 H2]. destruct s as [|p s]; [split; auto; constructor|].
  destruct (linked_tail _ _ H2) as [_ Ht]. cbn [track_free]. destruct (p_track p) eqn:E; [|split; auto].
  rewrite track_free_eq by auto. change (sub_mem n p :: map (sub_mem n) s) with (map (sub_mem n) (p :: s)). clear E Ht.
  split.
  - apply Forall_map. revert H1. apply Forall_impl. intros q Hq. pose proof Hq as (_ & ? & _). eapply good_phase_ext; eauto; cbn; lia.
  - clear H1. revert p H2. induction s as [|q s IH]; intros p; cbn [map linked]; auto.
    intros (A & B & C & D & F). specialize (IH q F). cbn [map] in IH. cbn. repeat split; auto; lia.
Qed.
(** changing the flag of the current phase, its end, its statistics *)
Lemma good_top now p p' s : good now (p :: s) -> d_start (p_data p') = d_start (p_data p) -> d_off (p_data p') = d_off (p_data p) ->
  d_cur (p_data p') = d_cur (p_data p) -> d_peak (p_data p') = d_peak (p_data p) -> d_sub (p_data p') = d_sub (p_data p) ->
  good now (p' :: s).
Proof.
  intros [H1 H2] A B C D E. inversion H1 as [|? ? Hp Hs]; subst. split.
  - constructor; auto. pose proof Hp as (? & ? & ?). eapply good_phase_ext; eauto; lia.
  - destruct s as [|q s]; auto. cbn [linked] in *. rewrite A, B, C, D. auto.
Qed.
Lemma good_start t now0 now s : now0 <= now -> good now0 s -> good now (resume (init t now s)).
Proof.
  intros Hn H. apply (good_mono _ now) in H; auto. destruct s as [|p s]; cbn [init resume].
  - split; [|exact I]. constructor; [|constructor]. unfold good_phase. cbn. repeat split; auto; lia.
  - assert (H' : good now (set_track true p :: s)) by (apply (good_top _ p); auto). destruct H' as [A B].
    inversion A as [|? ? Hp Hs]; subst. split.
    + constructor; auto. unfold good_phase. cbn. repeat split; auto; lia.
    + cbn [linked]. split; [reflexivity|]. destruct Hp as (? & ? & ? & ?). cbn in *. repeat split; auto; lia.
Qed.
Lemma good_finish now0 now s d s' : now0 <= now -> good now0 s -> finish now s = Some (d, s') -> good now s'.
Proof.
  intros Hn H E. apply (good_mono _ now) in H; auto. destruct s as [|p [|q s]]; cbn [finish] in E; try discriminate; apply Some_inj in E; inversion E; subst.
  - split; auto; constructor.
  - destruct H as [A B]. inversion A as [|? ? Hp A']; subst. inversion A' as [|? ? Hq Hs]; subst. cbn [linked] in B.
    destruct B as (B1 & B2 & B3 & B4 & B5). split.
    + constructor; auto. destruct Hq as (Q1 & Q2 & Q3 & Q4). destruct Hp as (P1 & P2 & P3 & P4).
      unfold good_phase. cbn. repeat split; auto. apply Forall_app. split.
      * revert Q4. apply Forall_impl. intros x (Hx & ?). split; auto. revert Hx. apply consistent_mono; cbn; lia.
      * constructor; [|constructor]. split; [|cbn; lia]. apply consistent_unfold. cbn. repeat split; auto; try lia.
        revert P4. apply Forall_impl. intros x (Hx & ?). split; auto. revert Hx. apply consistent_mono; cbn; lia.
    + destruct s as [|r s]; auto. 
Qed.
Lemma split_end_start now t s s1 now0 : good now0 s -> step (End now) s = Some s1 -> step (Split t now) s = step (Start t now) s1.
Proof.
  intros [_ H] E. cbn [step] in *. destruct s as [|p [|q s]]; cbn [pause finish obind] in *; try discriminate; apply Some_inj in E; subst; [reflexivity|].
  f_equal. cbn [init set_off resume set_track p_data p_track set_end d_off d_cur d_title d_start d_end d_peak d_stats d_sub new_data add_child].
  cbn [linked] in H. destruct H as (_ & -> & _). reflexivity.
Qed.
(** the latest clock reading of a history *)
Fixpoint clock (t : Z) (os : list op) : Z :=
  match os with
  | [] => t
  | (Start _ now | End now | Split _ now | Report now) :: r => clock now r
  | _ :: r => clock t r
  end.
Lemma good_pause now s : good now s -> good now (pause s).
Proof. destruct s as [|p s]; auto. intros H. apply (good_top _ p); auto. Qed.
Lemma good_steps : forall os t s s', good t s -> history t os -> steps os s = Some s' -> good (clock t os) s'.
Proof.
  induction os as [|o os IH]; intros t s s' G H E; cbn [steps] in E.
  - apply Some_inj in E. subst. exact G.
  - destruct (step o s) as [s1|] eqn:E1; [|discriminate]. cbn [obind] in E.
    destruct o; cbn [history clock] in *; try destruct H as [Hn H];
      (eapply IH; [|exact H|exact E]); clear IH H E.
    + cbn [step] in E1. apply Some_inj in E1. subst. eapply good_start; eauto.
    + cbn [step] in E1. destruct (finish now (pause s)) as [[d s2]|] eqn:E2; [|discriminate]. cbn in E1. apply Some_inj in E1. subst.
      eapply good_finish; [eassumption| |eassumption]. apply good_pause; auto.
    + assert (exists s2, step (End now) s = Some s2) as [s2 E2].
      { cbn [step] in *. destruct (finish now (pause s)) as [[d s2]|]; [|discriminate]. eexists. reflexivity. }
      rewrite (split_end_start _ _ _ _ _ G E2) in E1.
      assert (good now s2).
      { cbn [step] in E2. destruct (finish now (pause s)) as [[d s3]|] eqn:E3; [|discriminate]. cbn in E2. apply Some_inj in E2. subst.
        eapply good_finish; [eassumption| |eassumption]. apply good_pause; auto. }
      cbn [step] in E1. apply Some_inj in E1. subst. eapply good_start; [|eassumption]. lia.
    + cbn [step] in E1. apply Some_inj in E1. subst. apply good_alloc; auto.
    + cbn [step] in E1. apply Some_inj in E1. subst. apply good_free; auto.
    + cbn [step] in E1. apply Some_inj in E1. subst. apply good_pause; auto.
    + cbn [step] in E1. apply Some_inj in E1. subst. destruct s as [|p s]; auto. apply (good_top _ p); auto.
    + cbn [step] in E1. apply Some_inj in E1. subst. destruct s as [|p s]; auto. apply (good_top _ p); auto.
    + cbn [step] in E1. apply Some_inj in E1. subst. apply (good_mono _ now) in G; auto. destruct s as [|p s]; auto. apply (good_top _ p); auto.
Qed.

(** C48. Every history whose clock does not run backwards, pauses included: in every running phase the peak
    is at least the current value and at least 0; every finished sub phase lies in its parent's time
    and its offset plus its peak does not exceed its parent's peak, at every depth; a running phase's offset
    plus its memory is its parent's memory. *)
Theorem every_history_consistent : forall os t s, history t os -> steps os [] = Some s ->
  (forall p, In p s -> 0 <= d_peak (p_data p) /\ d_cur (p_data p) <= d_peak (p_data p) /\
     forall c, In c (d_sub (p_data p)) -> consistent c (p_data p)) /\
  (forall i p q, nth_error s i = Some p -> nth_error s (S i) = Some q ->
     d_off (p_data p) + d_cur (p_data p) = d_cur (p_data q) /\ d_off (p_data p) + d_peak (p_data p) <= d_peak (p_data q)).
Proof.
  intros os t s H E. assert (G0 : good t []) by (split; constructor).
  destruct (good_steps _ _ _ _ G0 H E) as [A B]. split.
  - intros p Hp. rewrite Forall_forall in A. destruct (A p Hp) as (P1 & P2 & P3 & P4). repeat split; auto.
    intros c Hc. rewrite Forall_forall in P4. apply P4; auto.
  - clear A E H. induction s as [|x s IH]; intros i p q Ep Eq; [destruct i; discriminate|].
    destruct (linked_tail _ _ B) as [Bt _]. destruct i as [|i]; cbn [nth_error] in *.
    + destruct s as [|y s]; [discriminate|]. injection Ep as ->. injection Eq as ->. cbn [linked] in B. tauto.
    + eapply IH; eauto.
Qed.
Print Assumptions every_history_consistent.

(** C48. split is ending the phase and starting a new one, in every history. *)
Theorem split_is_end_start : forall os t now title s, history t os -> steps os [] = Some s ->
  step (Split title now) s = steps [End now; Start title now] s.
Proof.
  intros os t now title s H E. assert (G0 : good t []) by (split; constructor).
  pose proof (good_steps _ _ _ _ G0 H E) as G. cbn [steps].
  destruct (step (End now) s) as [s1|] eqn:E1; cbn [obind].
  - rewrite (split_end_start _ _ _ _ _ G E1). cbn [step obind]. reflexivity.
  - cbn [step] in *. destruct (finish now (pause s)) as [[d s2]|]; [discriminate|reflexivity].
Qed.
Print Assumptions split_is_end_start.

(** C48, what does not hold: logging a statistic, starting a nested phase or requesting the report
    while tracking is paused resumes it, so memory meant to be excluded is counted. *)
Theorem pause_refuted : forall title t0 n o, 0 <= n ->
  o = [Log [] []] \/ (exists t a b, o = [Start t a; End b]) \/ (exists a, o = [Report a]) ->
  exists p, steps ([Start title t0; Pause] ++ o ++ [Alloc n]) [] = Some [p] /\ d_cur (p_data p) = n.
Proof.
  intros title t0 n o Hn [-> | [(t & a & b & ->) | (a & ->)]]; eexists; (split; [reflexivity|]); cbn; lia.
Qed.
Print Assumptions pause_refuted.

(** ** the JSON report *)
Definition text_ok (s : list N) : Prop := (length s < 64)%nat /\ Forall (fun c => (32 <= c)%N /\ c <> 92%N) s.
Fixpoint data_ok (d : pdata) : Prop :=
  match d with
  | PD t _ _ _ _ _ stats sub =>
      text_ok t /\ Forall (fun kv => text_ok (fst kv) /\ text_ok (snd kv)) stats /\
      (fix all l := match l with [] => True | x :: r => data_ok x /\ all r end) sub
  end.
(** what the report says, as a JSON value: members in alphabetical order *)
Fixpoint data_json (d : pdata) : json :=
  match d with
  | PD t st en off cur peak stats sub =>
      Obj [(kw_memFinal, Num cur); (kw_memOff, Num off); (kw_memPeak, Num peak);
           (kw_stats, Arr (map (fun kv => Obj [(kw_key, Str (fst kv)); (kw_value, Str (snd kv))]) stats));
           (kw_sub, Arr (map data_json sub));
           (kw_timeEnd, Num en); (kw_timeStart, Num st); (kw_title, Str t)]
  end.
Fixpoint pd_size (d : pdata) : nat :=
  S ((fix go l := match l with [] => O | x :: r => (pd_size x + go r)%nat end) (d_sub d)).
Fixpoint pds_size (l : list pdata) : nat := match l with [] => O | x :: r => (pd_size x + pds_size r)%nat end.
Definition subs_json := fix go (l : list pdata) : option (list jv) :=
  match l with [] => Some [] | d :: r => do j <- to_json d; do r <- go r; Some (j :: r) end.
Definition all_clean := fix all l := match l with [] => True | v :: r => clean v /\ all r end.
Lemma cbuf_ok s : text_ok s -> cbuf s = Some s.
Proof. intros [H _]. unfold cbuf. apply Nat.ltb_lt in H. rewrite H. reflexivity. Qed.
Lemma kw_plain : Forall (Forall plain_char) [kw_title; kw_timeStart; kw_timeEnd; kw_memOff; kw_memPeak; kw_memFinal; kw_key; kw_value; kw_stats; kw_sub].
Proof.
  repeat first [apply Forall_cons | apply Forall_nil]; unfold plain_char; repeat split; try lia; discriminate.
Qed.
Lemma stats_json_ok l : Forall (fun kv => text_ok (fst kv) /\ text_ok (snd kv)) l ->
  exists r, stats_json l = Some r /\ all_clean r /\
    map den r = map (fun kv => Obj [(kw_key, Str (fst kv)); (kw_value, Str (snd kv))]) l.
Proof.
  induction 1 as [|[k v] l [Hk Hv] H (r & E & C & D)]; cbn [stats_json].
  - eexists. repeat split.
  - cbn [fst snd] in *. rewrite !cbuf_ok by auto. cbn [obind]. rewrite E. cbn [obind]. eexists. split; [reflexivity|].
    split; [cbn [all_clean]; split; auto|].
    + pose proof kw_plain as K. rewrite !Forall_cons_iff in K. change (clean (JObj [(kw_key, JStr k); (kw_value, JStr v)])).
      cbn [clean]. destruct Hk, Hv. tauto.
    + cbn [map]. rewrite D. reflexivity.
Qed.
Lemma to_json_ok : forall n d, (pd_size d <= n)%nat -> data_ok d -> exists j, to_json d = Some j /\ clean j /\ den j = data_json d.
Proof.
  induction n as [|n IH]; intros d Hn Hd; [destruct d; cbn [pd_size] in Hn; lia|].
  destruct d as [t st en off cur peak stats sub]. cbn [data_ok] in Hd. destruct Hd as (Ht & Hs & Hsub).
  assert (Hn' : (pds_size sub <= n)%nat) by (change (S (pds_size sub) <= S n)%nat in Hn; lia). clear Hn.
  assert (exists l, subs_json sub = Some l /\ all_clean l /\ map den l = map data_json sub) as (l & El & Cl & Dl).
  { clear Ht Hs. induction sub as [|x r IHr]; [eexists; repeat split|]. cbn [pds_size] in Hn'. destruct Hsub as [Hx Hr].
    destruct (IH x ltac:(lia) Hx) as (j & Ej & Cj & Dj). destruct (IHr Hr ltac:(lia)) as (l & El & Cl & Dl).
    exists (j :: l). cbn [subs_json map all_clean]. fold subs_json. rewrite Ej, El, Dj, Dl. cbn [obind]. repeat split; auto. }
  destruct (stats_json_ok _ Hs) as (sj & Es & Cs & Ds).
  cbn [to_json]. fold subs_json. rewrite (cbuf_ok t Ht), Es. cbn [obind]. rewrite El. cbn [obind].
  eexists. split; [reflexivity|].
  match goal with |- clean (JObj ?o) /\ _ =>
    change o with [(kw_memFinal, JInt cur); (kw_memOff, JInt off); (kw_memPeak, JInt peak); (kw_stats, JArr sj);
                   (kw_sub, JArr l); (kw_timeEnd, JInt en); (kw_timeStart, JInt st); (kw_title, JStr t)] end.
  pose proof kw_plain as K. rewrite !Forall_cons_iff in K. split.
  - cbn [clean]. destruct Ht. repeat split; try tauto.
  - cbn [den map fst snd data_json]. rewrite Ds, Dl. reflexivity.
Qed.

(** C48. The report of the current phase, when all titles, keys and values are shorter than 64
    characters and contain no backslash or control character, is a JSON document saying what was measured. *)
Theorem report_json : forall now p s, data_ok (p_data p) ->
  exists v doc, report now (p :: s) = Some v /\ jstr 0 v = Some doc /\ parse doc = Some (data_json (set_end now (p_data p))).
Proof.
  intros now p s H. cbn [report].
  assert (H' : data_ok (set_end now (p_data p))) by (destruct (p_data p); exact H).
  destruct (to_json_ok _ _ (le_n _) H') as (j & E & C & D). destruct (json_roundtrip j C) as (doc & E1 & E2).
  exists j, doc. rewrite E, E1, E2, D. auto.
Qed.
Print Assumptions report_json.
(** A title of 64 or more characters is copied without its terminator. *)
Theorem report_long_title_refuted : forall now p s, (64 <= length (d_title (p_data p)))%nat -> report now (p :: s) = None.
Proof.
  intros now p s H. cbn [report]. destruct (p_data p) as [t st en off cur peak stats sub]. cbn [d_title] in H. cbn [set_end to_json].
  unfold set_end. cbn [d_title]. cbn [to_json]. unfold cbuf at 1. apply Nat.ltb_ge in H. rewrite H. reflexivity.
Qed.
Print Assumptions report_long_title_refuted.

(** Non-vacuity: two nested phases, memory allocated before, in and after them, with a pause. *)
Definition ex_run : list ev :=
  [EMem 100; EUntracked [50; -20];
   EPhase [97%N] 2 5 [EMem 40; ELog [107%N] [118%N]; EPhase [98%N] 3 4 [EMem 60; EMem (-50)]; EMem (-30)]; EMem (-100)].
Example ex_phase_data :
  steps (Start [114%N] 1 :: flat_map ev_ops ex_run) [] =
  Some [mk_phase (PD [114%N] 1 0 0 20 200 []
     [PD [97%N] 2 5 100 20 100 [([107%N], [118%N])] [PD [98%N] 3 4 40 10 60 [] []]]) true].
Proof. reflexivity. Qed.
Example ex_history : history 0 (Start [114%N] 1 :: flat_map ev_ops ex_run) /\ data_ok (PD [114%N] 1 0 0 20 200 []
     [PD [97%N] 2 5 100 20 100 [([107%N], [118%N])] [PD [98%N] 3 4 40 10 60 [] []]]).
Proof.
  split; cbn; repeat split; try lia; repeat first [apply Forall_cons | apply Forall_nil]; repeat split; cbn; try lia; try discriminate;
    repeat first [apply Forall_cons | apply Forall_nil]; repeat split; cbn; try lia; discriminate.
Qed.
Example ex_split : steps [Start [1%N] 1; Start [2%N] 2; Alloc 5; Split [3%N] 3; Alloc 7] [] =
  Some [mk_phase (PD [3%N] 3 0 5 7 7 [] []) true; mk_phase (PD [1%N] 1 0 0 12 12 [] [PD [2%N] 2 3 0 5 5 [] []]) true].
Proof. reflexivity. Qed.
