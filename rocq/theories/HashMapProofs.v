From Coq Require Import Permutation.
From Verif Require Import Base Tries HashMap HashMapSpec.
Local Open Scope N_scope.

Definition nonempty (p : N * N) : bool := negb (snd p =? undef_id).
Definition slots (m : hmap) : list (N * N) := combine (h_keys m) (h_vals m).
Definition content (m : hmap) : list (N * N) := filter nonempty (slots m).

(** slot [j] of the table *)
Definition slot (m : hmap) (j : N) : option (N * N) := nth_error (slots m) (N.to_nat j).

(** the probe sequence of a key *)
Fixpoint path (c : hconf) (size k : N) (t : nat) : N * N :=
  match t with
  | O => (sm_mod (hc_sm c) (hc_hash c k) size (hc_hash c k) 0, 0)
  | S t => let '(pos, i) := path c size k t in
           let init := sm_mod (hc_sm c) (hc_hash c k) size (hc_hash c k) 0 in
           let i := w32 (i + 1) in
           (sm_mod (hc_sm c) (hc_probe c i pos init size) size (hc_hash c k) i, i)
  end.
Definition pos_at c size k t := fst (path c size k t).

Definition held (m : hmap) (j k v : N) : Prop := slot m j = Some (k, v) /\ v <> undef_id.
(** the key's slot is reached over non-empty slots of other keys *)
Definition reachable (c : hconf) (m : hmap) (k j : N) : Prop :=
  exists t, pos_at c (h_size m) k t = j /\
    forall t', (t' < t)%nat -> exists k' v', held m (pos_at c (h_size m) k t') k' v' /\ k' <> k.
Record inv (c : hconf) (m : hmap) : Prop := {
  inv_lk : length (h_keys m) = N.to_nat (h_size m);
  inv_lv : length (h_vals m) = N.to_nat (h_size m);
  inv_reach : forall j k v, held m j k v -> reachable c m k j
}.

Lemma combine_nth_error : forall A B (l : list A) (r : list B) i,
  nth_error (combine l r) i = match nth_error l i, nth_error r i with Some a, Some b => Some (a, b) | _, _ => None end.
Proof.
  intros A B l. induction l as [| a l IH]; intros [| b r] [| i]; cbn; try reflexivity.
  - destruct (nth_error l i); reflexivity.
  - apply IH.
Qed.

Lemma slot_eq : forall m j, slot m j = match nth_error (h_keys m) (N.to_nat j), nth_error (h_vals m) (N.to_nat j) with
                                       | Some a, Some b => Some (a, b) | _, _ => None end.
Proof. intros. unfold slot, slots. apply combine_nth_error. Qed.

Lemma content_held : forall m k v, In (k, v) (content m) <-> exists j, held m j k v.
Proof.
  intros m k v. unfold content. rewrite filter_In. unfold nonempty. cbn [snd].
  rewrite Bool.negb_true_iff, N.eqb_neq. split.
  - intros [H1 H2]. apply In_nth_error in H1. destruct H1 as [i Hi].
    exists (N.of_nat i). split; [unfold slot; rewrite Nat2N.id; exact Hi | exact H2].
  - intros [j [H1 H2]]. split; [| exact H2]. unfold slot in H1. eapply nth_error_In; eauto.
Qed.

Lemma reach_fun : forall c m k j j' v v', held m j k v -> held m j' k v' ->
  reachable c m k j -> reachable c m k j' -> j = j'.
Proof.
  intros c m k j j' v v' H1 H2 [t [T1 T2]] [t' [T1' T2']].
  destruct (lt_eq_lt_dec t t') as [[L | L] | L].
  - destruct (T2' t L) as [k2 [v2 [[A _] B]]]. rewrite T1 in A. destruct H1 as [H1 _]. congruence.
  - subst t'. congruence.
  - destruct (T2 t' L) as [k2 [v2 [[A _] B]]]. rewrite T1' in A. destruct H2 as [H2 _]. congruence.
Qed.

Lemma held_fun : forall c m, inv c m -> forall j j' k v v', held m j k v -> held m j' k v' -> j = j' /\ v = v'.
Proof.
  intros c m I j j' k v v' H1 H2.
  assert (j = j').
  { eapply reach_fun; eauto; eapply inv_reach; eauto. }
  subst. destruct H1 as [H1 _]. destruct H2 as [H2 _]. split; congruence.
Qed.

(** the probe loop *)
Lemma probe_loop_spec : forall fuel c m k t pos i r,
  path c (h_size m) k t = (pos, i) ->
  (forall t', (t' < t)%nat -> exists k' v', held m (pos_at c (h_size m) k t') k' v' /\ k' <> k) ->
  probe_loop fuel c m k (hc_hash c k) (sm_mod (hc_sm c) (hc_hash c k) (h_size m) (hc_hash c k) 0) pos i = Some r ->
  (inv c m) ->
  match r with
  | (p, true) => exists v, held m p k v
  | (p, false) => nth_error (h_vals m) (N.to_nat p) = Some undef_id /\ reachable c m k p
  end.
Proof.
  induction fuel as [| fuel IH]; intros c m k t pos i r HP HB HL I; [discriminate |].
  cbn [probe_loop] in HL.
  destruct (nth_error (h_vals m) (N.to_nat pos)) as [v |] eqn:Ev; [| discriminate].
  cbn [obind] in HL. destruct (v =? undef_id) eqn:Eu.
  - apply Some_inj in HL. subst r. apply N.eqb_eq in Eu. subst v. split; [exact Ev |].
    exists t. split; [unfold pos_at; rewrite HP; reflexivity | exact HB].
  - apply N.eqb_neq in Eu.
    destruct (nth_error (h_keys m) (N.to_nat pos)) as [k' |] eqn:Ek; [| discriminate].
    cbn [obind] in HL. destruct (k' =? k) eqn:Ekk.
    + apply Some_inj in HL. subst r. apply N.eqb_eq in Ekk. subst k'. exists v.
      split; [rewrite slot_eq, Ek, Ev; reflexivity | exact Eu].
    + apply N.eqb_neq in Ekk.
      refine (IH c m k (S t) _ _ r _ _ HL I).
      * cbn [path]. rewrite HP. reflexivity.
      * intros t' Lt. destruct (Nat.eq_dec t' t) as [-> | Ne].
        -- exists k', v. unfold pos_at. rewrite HP. cbn [fst].
           split; [split; [rewrite slot_eq, Ek, Ev; reflexivity | exact Eu] | exact Ekk].
        -- apply HB. lia.
Qed.

(** setting an empty slot *)
Definition set_slot (m : hmap) (p k v e lf : N) : hmap :=
  mk_hmap (h_size m) (upd (h_keys m) (N.to_nat p) k) (upd (h_vals m) (N.to_nat p) v) e lf.

Lemma combine_upd : forall A B (l : list A) (r : list B) i a b,
  combine (upd l i a) (upd r i b) = upd (combine l r) i (a, b).
Proof.
  intros A B l. induction l as [| x l IH]; intros [| y r] [| i] a b; cbn; try reflexivity.
  now rewrite IH.
Qed.

Lemma set_slot_slots : forall m p k v e lf, slots (set_slot m p k v e lf) = upd (slots m) (N.to_nat p) (k, v).
Proof. intros. unfold slots, set_slot. cbn [h_keys h_vals]. apply combine_upd. Qed.

Lemma filter_upd_perm : forall (l : list (N * N)) i x y,
  nth_error l i = Some x -> nonempty x = false -> nonempty y = true ->
  Permutation (filter nonempty (upd l i y)) (y :: filter nonempty l).
Proof.
  induction l as [| z l IH]; intros [| i] x y H1 H2 H3; try discriminate; cbn [nth_error] in H1; cbn [upd filter].
  - apply Some_inj in H1. subst z. rewrite H2, H3. reflexivity.
  - destruct (nonempty z).
    + rewrite (IH _ _ _ H1 H2 H3). apply perm_swap.
    + apply (IH _ _ _ H1 H2 H3).
Qed.

Lemma held_set : forall m p k v e lf j k' v',
  (N.to_nat p < length (slots m))%nat -> v <> undef_id ->
  held (set_slot m p k v e lf) j k' v' <-> (j = p /\ k' = k /\ v' = v) \/ (j <> p /\ held m j k' v').
Proof.
  intros m p k v e lf j k' v' HL Hv. unfold held, slot. rewrite set_slot_slots.
  destruct (N.eq_dec j p) as [-> | Ne].
  - rewrite nth_error_upd_eq by exact HL. split.
    + intros [H1 H2]. left. injection H1; intros; subst; auto.
    + intros [(_ & -> & ->) | [H _]]; [auto | congruence].
  - rewrite nth_error_upd_ne by (intros C; apply Ne; lia). split.
    + intros H. right. auto.
    + intros [(H & _) | [_ H]]; [congruence | exact H].
Qed.

Lemma set_slot_inv : forall c m p k v e lf, inv c m -> v <> undef_id ->
  nth_error (h_vals m) (N.to_nat p) = Some undef_id -> reachable c m k p ->
  inv c (set_slot m p k v e lf) /\ Permutation (content (set_slot m p k v e lf)) ((k, v) :: content m).
Proof.
  intros c m p k v e lf I Hv HE HR. destruct I as [L1 L2 R].
  assert (LP : (N.to_nat p < N.to_nat (h_size m))%nat) by (rewrite <- L2; apply nth_error_Some; congruence).
  assert (HK : exists k0, nth_error (h_keys m) (N.to_nat p) = Some k0).
  { destruct (nth_error (h_keys m) (N.to_nat p)) eqn:E; [eauto |]. apply nth_error_None in E. lia. }
  destruct HK as [k0 HK].
  assert (LS : (N.to_nat p < length (slots m))%nat) by (unfold slots; rewrite combine_length; lia).
  assert (HH : forall j k' v', held m j k' v' -> j <> p).
  { intros j k' v' [H1 H2] ->. rewrite slot_eq, HK, HE in H1. congruence. }
  assert (TR : forall k' j, reachable c m k' j -> reachable c (set_slot m p k v e lf) k' j).
  { intros k' j [t [T1 T2]]. exists t. split; [exact T1 |].
    intros t' Lt. destruct (T2 t' Lt) as [k2 [v2 [A B]]]. exists k2, v2. split; [| exact B].
    cbn [set_slot h_size]. apply held_set; auto. right. split; [eapply HH; eauto | exact A]. }
  split.
  - constructor.
    + cbn [set_slot h_keys h_size]. rewrite upd_length. exact L1.
    + cbn [set_slot h_vals h_size]. rewrite upd_length. exact L2.
    + intros j k' v' Hh. apply held_set in Hh; auto. destruct Hh as [(-> & -> & ->) | [Ne Hh]].
      * apply TR. exact HR.
      * apply TR. eapply R; eauto.
  - unfold content. rewrite set_slot_slots. eapply filter_upd_perm.
    + unfold slots. rewrite combine_nth_error, HK, HE. reflexivity.
    + unfold nonempty. cbn [snd]. now rewrite N.eqb_refl.
    + unfold nonempty. cbn [snd]. apply N.eqb_neq in Hv. now rewrite Hv.
Qed.

(** a fresh table *)
Lemma fresh_inv : forall c size lf, inv c (ht_fresh size lf) /\ content (ht_fresh size lf) = [].
Proof.
  intros c size lf.
  assert (C : forall s, filter nonempty (combine (repeat 0 s) (repeat undef_id s)) = []).
  { induction s; [reflexivity |]. cbn [repeat combine filter]. unfold nonempty at 1. cbn [snd].
    rewrite N.eqb_refl. exact IHs. }
  assert (C2 : content (ht_fresh size lf) = []) by apply C.
  split; [| exact C2]. constructor.
  - cbn [ht_fresh h_keys h_size]. apply repeat_length.
  - cbn [ht_fresh h_vals h_size]. apply repeat_length.
  - intros j k v H. exfalso.
    assert (In (k, v) (content (ht_fresh size lf))) by (apply content_held; eauto).
    rewrite C2 in H0. destruct H0.
Qed.

(** keys occur once *)
Lemma content_fun : forall c m, inv c m -> forall k v v', In (k, v) (content m) -> In (k, v') (content m) -> v = v'.
Proof.
  intros c m I k v v' H1 H2. apply content_held in H1, H2. destruct H1 as [j H1]. destruct H2 as [j' H2].
  eapply held_fun; eauto.
Qed.

Lemma combine_length_full : forall c m, inv c m -> length (slots m) = N.to_nat (h_size m).
Proof. intros c m [A B _]. unfold slots. rewrite combine_length. lia. Qed.

Lemma filter_nodup_keys : forall (l : list (N * N)),
  (forall i j k v v', nth_error l i = Some (k, v) -> nth_error l j = Some (k, v') ->
     v <> undef_id -> v' <> undef_id -> i = j) ->
  NoDup (map fst (filter nonempty l)).
Proof.
  induction l as [| [k v] l IH]; intros H; [constructor |].
  assert (IH' : NoDup (map fst (filter nonempty l))).
  { apply IH. intros i j k' v1 v2 A B C D. specialize (H (S i) (S j) k' v1 v2 A B C D). lia. }
  cbn [filter]. destruct (nonempty (k, v)) eqn:E; [| exact IH'].
  cbn [map fst]. constructor; [| exact IH'].
  intros C. apply in_map_iff in C. destruct C as [[k' v'] [C1 C2]]. cbn [fst] in C1. subst k'.
  apply filter_In in C2. destruct C2 as [C2 C3]. apply In_nth_error in C2. destruct C2 as [i C2].
  unfold nonempty in E, C3. cbn [snd] in E, C3. rewrite Bool.negb_true_iff, N.eqb_neq in E, C3.
  specialize (H 0%nat (S i) k v v' eq_refl C2 E C3). discriminate.
Qed.

Lemma content_nodup : forall c m, inv c m -> NoDup (map fst (content m)).
Proof.
  intros c m I. apply filter_nodup_keys. intros i j k v v' A B C D.
  assert (X := held_fun c m I (N.of_nat i) (N.of_nat j) k v v').
  unfold held, slot in X. rewrite !Nat2N.id in X. destruct X; auto. lia.
Qed.

Lemma NoDup_app_l : forall A (l r : list A), NoDup (l ++ r) -> forall x, In x l -> In x r -> False.
Proof.
  induction l as [| a l IH]; intros r H x H1 H2; [destruct H1 |]. cbn [app] in H. inversion H; subst.
  destruct H1 as [-> | H1]; [| eauto]. apply H4. apply in_or_app. auto.
Qed.

(** what one insert does *)
Definition ins_ok (c : hconf) (m : hmap) (k v : N) (r : hmap * (N * bool)) : Prop :=
  let '(m', (x, b)) := r in
  inv c m' /\
  match b with
  | false => m' = m /\ In (k, x) (content m)
  | true => x = v /\ ~ In k (map fst (content m)) /\ Permutation (content m') ((k, v) :: content m) /\
            (h_entries m = N.of_nat (length (content m)) -> h_entries m + 1 < 2 ^ 32 ->
             h_entries m' = N.of_nat (length (content m')))
  end.
Definition ins_good (c : hconf) (ins : hmap -> N -> N -> option (hmap * (N * bool))) : Prop :=
  forall m k v r, inv c m -> v <> undef_id -> ins m k v = Some r -> ins_ok c m k v r.

Lemma rehash_ok : forall c ins, ins_good c ins -> forall l m m',
  inv c m -> rehash ins l m = Some m' ->
  NoDup (map fst (filter nonempty l ++ content m)) ->
  inv c m' /\ Permutation (content m') (filter nonempty l ++ content m) /\
  (h_entries m = N.of_nat (length (content m)) -> N.of_nat (length (filter nonempty l ++ content m)) < 2 ^ 32 ->
   h_entries m' = N.of_nat (length (content m'))).
Proof.
  intros c ins IG. induction l as [| [k v] l IH]; intros m m' I HR ND.
  - cbn [rehash] in HR. apply Some_inj in HR. subst m'. cbn [filter app]. auto.
  - cbn [rehash] in HR. cbn [filter] in ND |- *.
    assert (NE : nonempty (k, v) = negb (v =? undef_id)) by reflexivity. rewrite NE in ND |- *. clear NE.
    destruct (v =? undef_id) eqn:E; cbn [negb] in ND |- *.
    + apply IH; auto.
    + apply N.eqb_neq in E. destruct (ins m k v) as [[m1 [x b]] |] eqn:EI; [| discriminate].
      cbn [obind] in HR. specialize (IG m k v _ I E EI). cbn in IG. destruct IG as [I1 IG].
      cbn [app map fst] in ND. apply NoDup_cons_iff in ND. destruct ND as [N1 N2].
      destruct b.
      * destruct IG as (-> & NI & P & HE).
        assert (PP : Permutation (filter nonempty l ++ content m1) ((k, v) :: filter nonempty l ++ content m)).
        { rewrite P. symmetry. apply Permutation_middle. }
        destruct (IH m1 m' I1 HR) as (J1 & J2 & J3).
        { eapply Permutation_NoDup; [apply Permutation_map; symmetry; exact PP |].
          cbn [map fst]. constructor; assumption. }
        split; [exact J1 |]. split; [rewrite J2; exact PP |].
        intros H1 H2. apply J3.
        -- apply HE; [exact H1 |]. cbn [app length] in H2. rewrite app_length in H2. lia.
        -- apply Permutation_length in PP. rewrite PP. exact H2.
      * destruct IG as (-> & NI). exfalso. apply N1. rewrite map_app. apply in_or_app. right.
        apply in_map_iff. exists (k, x). auto.
Qed.

Lemma reserve_ok : forall c ins, ins_good c ins -> forall m hint m',
  NoDup (map fst (content m)) -> (h_entries m = N.of_nat (length (content m)) \/ h_entries m <> 0) -> ht_reserve_with ins c m hint = Some m' ->
  inv c m' /\ Permutation (content m') (content m) /\
  (N.of_nat (length (content m)) < 2 ^ 32 -> h_entries m' = N.of_nat (length (content m'))).
Proof.
  intros c ins IG m hint m' I HE HR. unfold ht_reserve_with in HR.
  set (f := ht_fresh (sm_min (hc_sm c) hint) (h_lf m)) in *.
  destruct (fresh_inv c (sm_min (hc_sm c) hint) (h_lf m)) as [FI FC]. fold f in FI, FC.
  destruct (0 <? h_entries m) eqn:E.
  - apply (rehash_ok c ins IG) in HR; [| exact FI |].
    + rewrite FC in HR. rewrite app_nil_r in HR. destruct HR as (A & B & C). split; [exact A |]. split; [exact B |]. auto.
    + rewrite FC, app_nil_r. exact I.
  - apply N.ltb_ge in E. apply Some_inj in HR. subst m'.
    assert (content m = []) as C0.
    { destruct (content m) eqn:EC; [reflexivity |]. destruct HE as [HE | HE]; cbn [length] in HE; lia. }
    rewrite FC, C0. split; [exact FI |]. split; [constructor |]. reflexivity.
Qed.

Lemma probe_false_notin : forall c m k pos, inv c m ->
  nth_error (h_vals m) (N.to_nat pos) = Some undef_id -> reachable c m k pos -> ~ In k (map fst (content m)).
Proof.
  intros c m k pos I HE HR C. apply in_map_iff in C. destruct C as [[k' v'] [C1 C2]]. cbn [fst] in C1. subst k'.
  apply content_held in C2. destruct C2 as [j C2].
  assert (R2 := inv_reach c m I j k v' C2).
  destruct HR as [t [T1 T2]]. destruct R2 as [t2 [U1 U2]].
  destruct (lt_eq_lt_dec t t2) as [[L | L] | L].
  - destruct (U2 t L) as [k2 [v2 [[A A'] B]]]. rewrite T1, slot_eq, HE in A.
    destruct (nth_error (h_keys m) (N.to_nat pos)); congruence.
  - subst t2. destruct C2 as [A A']. rewrite <- U1, T1, slot_eq, HE in A.
    destruct (nth_error (h_keys m) (N.to_nat pos)); congruence.
  - destruct (T2 t2 L) as [k2 [v2 [[A A'] B]]]. rewrite U1 in A. destruct C2 as [C2 _]. congruence.
Qed.

Lemma insert_ok : forall fuel c n rem, ins_good c (ht_insert fuel c n rem).
Proof.
  induction fuel as [| fuel IH]; intros c n rem m k v r I Hv HI; [discriminate |].
  cbn [ht_insert] in HI.
  match type of HI with obind ?p _ = _ => destruct p as [[pos found] |] eqn:EP end; [| discriminate].
  cbn [obind] in HI.
  assert (PS := probe_loop_spec fuel c m k 0 _ 0 (pos, found) eq_refl ltac:(intros; lia) EP I).
  cbv beta iota in PS. destruct found.
  - destruct PS as [x Hx].
    assert (nth_error (h_vals m) (N.to_nat pos) = Some x) as EX.
    { destruct Hx as [Hx _]. rewrite slot_eq in Hx. destruct (nth_error (h_keys m) (N.to_nat pos)); [| discriminate].
      destruct (nth_error (h_vals m) (N.to_nat pos)); congruence. }
    rewrite EX in HI. cbn [obind] in HI. apply Some_inj in HI. subst r. cbn.
    split; [exact I |]. split; [reflexivity |]. apply content_held. eauto.
  - destruct PS as [HE HR].
    assert (NK := probe_false_notin c m k pos I HE HR).
    set (m1 := mk_hmap (h_size m) (upd (h_keys m) (N.to_nat pos) k) (upd (h_vals m) (N.to_nat pos) v)
                       (w32 (h_entries m + 1)) (h_lf m)) in *.
    destruct (over (h_size m1) (h_lf m1) (h_entries m1)) eqn:EO.
    + destruct (grow (sm_direct (hc_sm c)) (h_size m1) (h_lf m1) (h_entries m1) n rem) as [lf hint] eqn:EG.
      set (m2 := mk_hmap (h_size m1) (h_keys m1) (h_vals m1) (h_entries m1) lf) in *.
      destruct (ht_reserve_with (ht_insert fuel c n rem) c m2 hint) as [m3 |] eqn:E3; [| discriminate].
      cbn [obind] in HI.
      destruct (ht_insert fuel c n rem m3 k v) as [[m4 [x b]] |] eqn:E4; [| discriminate].
      cbn [obind] in HI. apply Some_inj in HI. subst r. cbn [ins_ok].
      destruct (set_slot_inv c m pos k v (w32 (h_entries m + 1)) lf I Hv HE HR) as [I2 P2].
      fold m2 in I2. change (set_slot m pos k v (w32 (h_entries m + 1)) lf) with m2 in I2, P2.
      assert (O2 : h_entries m2 <> 0).
      { intros C. cbn [m2 h_entries] in C. unfold over in EO. rewrite C in EO.
        cbn in EO. destruct (rnd24 (rnd24 (h_size m) * h_lf m)); discriminate. }
      destruct (reserve_ok c _ (IH c n rem) m2 hint m3 (content_nodup c m2 I2) (or_intror O2) E3) as (I3 & P3 & H3).
      assert (IN : In (k, v) (content m3)).
      { eapply Permutation_in; [symmetry; exact P3 |]. eapply Permutation_in; [symmetry; exact P2 |]. left. reflexivity. }
      assert (J := IH c n rem m3 k v _ I3 Hv E4). cbn [ins_ok] in J. destruct J as [I4 J].
      destruct b.
      * exfalso. destruct J as (_ & J & _). apply J. apply in_map_iff. exists (k, v). auto.
      * destruct J as [-> J]. split; [exact I4 |]. split; [eapply content_fun; eauto |].
        split; [exact NK |]. split; [rewrite P3; exact P2 |].
        intros HH HL. apply H3. apply Permutation_length in P2. rewrite P2. cbn [length]. lia.
    + apply Some_inj in HI. subst r. cbn [ins_ok].
      destruct (set_slot_inv c m pos k v (w32 (h_entries m + 1)) (h_lf m) I Hv HE HR) as [I2 P2].
      change (set_slot m pos k v (w32 (h_entries m + 1)) (h_lf m)) with m1 in I2, P2.
      split; [exact I2 |]. split; [reflexivity |]. split; [exact NK |]. split; [exact P2 |].
      intros HH HL. cbn [m1 h_entries]. apply Permutation_length in P2. rewrite P2. cbn [length].
      unfold w32. rewrite N.mod_small by exact HL. lia.
Qed.

(** the history *)
Definition rel (m : hmap) (f : fmap) : Prop :=
  (forall k v, f_get f k = Some v <-> In (k, v) (content m)) /\ f_count f = N.of_nat (length (content m)) /\
  h_entries m = N.of_nat (length (content m)).

Lemma run_ok : forall ops fuel c n m f l,
  inv c m -> rel m f -> f_count f + inserts ops < 2 ^ 32 ->
  (forall k v rem, In (HInsert k v rem) ops -> v <> undef_id) ->
  ht_run fuel c n m ops = Some l -> l = map_answers f ops.
Proof.
  induction ops as [| o ops IH]; intros fuel c n m f l I R HC HV HR.
  - cbn in HR. apply Some_inj in HR. now subst.
  - cbn [ht_run] in HR. destruct o as [k v rem | hint rem |]; cbn [ht_do] in HR; cbn [inserts] in HC.
    + destruct (ht_insert fuel c n rem m k v) as [[m1 [x b]] |] eqn:E; [| discriminate]. cbn [obind] in HR.
      destruct (ht_run fuel c n m1 ops) as [l1 |] eqn:E1; [| discriminate]. cbn [obind] in HR.
      apply Some_inj in HR. subst l.
      assert (J := insert_ok fuel c n rem m k v _ I (HV k v rem (or_introl eq_refl)) E). cbn in J.
      destruct J as [I1 J]. destruct R as (R1 & R2 & R3). cbn [map_answers].
      assert (HV' : forall k v rem, In (HInsert k v rem) ops -> v <> undef_id) by (intros; eapply HV; right; eauto).
      destruct b.
      * destruct J as (-> & J1 & J2 & J3).
        assert (f_get f k = None) as EN.
        { destruct (f_get f k) as [y |] eqn:EY; [| reflexivity]. exfalso. apply J1. apply R1 in EY.
          apply in_map_iff. exists (k, y). auto. }
        rewrite EN. f_equal. eapply IH; eauto.
        -- assert (PL := Permutation_length J2). cbn [length] in PL. split; [| split].
           ++ intros q y. cbn [f_add f_get]. destruct (q =? k) eqn:EQ.
              ** apply N.eqb_eq in EQ. subst q. split.
                 --- intros H. apply Some_inj in H. subst y. eapply Permutation_in; [symmetry; exact J2 |]. left. reflexivity.
                 --- intros H. apply (Permutation_in _ J2) in H. destruct H as [H | H]; [congruence |].
                     exfalso. apply J1. apply in_map_iff. exists (k, y). auto.
              ** apply N.eqb_neq in EQ. rewrite R1. split; intros H.
                 --- eapply Permutation_in; [symmetry; exact J2 |]. right. exact H.
                 --- apply (Permutation_in _ J2) in H. destruct H as [H | H]; [congruence | exact H].
           ++ cbn [f_add f_count]. lia.
           ++ apply J3; [exact R3 |]. lia.
        -- cbn [f_add f_count]. lia.
      * destruct J as (-> & J). apply R1 in J. rewrite J. f_equal. eapply IH; eauto; [repeat split; auto; apply R1 | lia].
    + destruct (ht_reserve fuel c n rem m hint) as [m1 |] eqn:E; [| discriminate]. cbn [obind] in HR.
      destruct (ht_run fuel c n m1 ops) as [l1 |] eqn:E1; [| discriminate]. cbn [obind] in HR.
      apply Some_inj in HR. subst l. cbn [map_answers]. f_equal. destruct R as (R1 & R2 & R3).
      destruct (reserve_ok c _ (insert_ok fuel c n rem) m hint m1 (content_nodup c m I) (or_introl R3) E) as (I1 & P1 & H1).
      assert (PL := Permutation_length P1).
      eapply IH; eauto.
      * split; [| split]; try lia.
        -- intros q y. rewrite R1. split; intros H.
           ++ eapply Permutation_in; [symmetry; exact P1 | exact H].
           ++ eapply Permutation_in; [exact P1 | exact H].
      * intros; eapply HV; right; eauto.
    + cbn [obind] in HR. destruct (ht_run fuel c n m ops) as [l1 |] eqn:E1; [| discriminate]. cbn [obind] in HR.
      apply Some_inj in HR. subst l. cbn [map_answers]. destruct R as (R1 & R2 & R3). rewrite R3, <- R2. f_equal.
      eapply IH; eauto; [repeat split; auto; apply R1 |]. intros; eapply HV; right; eauto.
Qed.
