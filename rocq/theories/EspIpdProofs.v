From Coq Require Import Permutation.
From Verif Require Import Base BitIO IntCodes IntCodesProofs Esp EspSpec EspProofs RigHash RigHashSpec RigHashProofs EspIpd.
Local Open Scope N_scope.

Lemma key_eqb_ok a b : key_eqb a b = true <-> a = b.
Proof.
  unfold key_eqb. destruct a as [a1 a2], b as [b1 b2]. cbn [fst snd]. rewrite andb_true_iff, !N.eqb_eq. split.
  - intros [-> ->]. reflexivity.
  - intros [= -> ->]. auto.
Qed.
Definition key_spec := keq_spec key_eqb key_eqb_ok.
Definition getv (l : list (key * N)) (k : key) : N := match m_get key_eqb l k with Some v => v | None => 0 end.
Notation del := (@m_del key N key_eqb).

(** What a map does for an access with a key that is not the empty key. *)
Record map_ok {St} (I : ipd St) (e : key) (R : St -> list (key * N) -> Prop) : Prop := {
  mo_new : forall c, R (i_new I c e) [];
  mo_all : forall st l, R st l -> Permutation (i_all I st) l;
  mo_nodup : forall st l, R st l -> NoDup (map fst l);
  mo_perm : forall st l l', R st l -> Permutation l l' -> R st l';
  mo_acc : forall S (f : S -> N -> S * N) s k st l, R st l -> k <> e ->
    exists st', i_access I f s k st = Some (fst (f s (getv l k)), snd (f s (getv l k)), st') /\ R st' ((k, snd (f s (getv l k))) :: del l k);
  mo_acc_e : forall S (f : S -> N -> S * N) s st l, R st l -> ~ In e (map fst l) ->
    exists st' l', i_access I f s e st = Some (fst (f s 0), snd (f s 0), st') /\ R st' l' /\ (l' = l \/ l' = (e, snd (f s 0)) :: l) }.

(** ** std::unordered_map *)
Lemma std_set_perm l k v : NoDup (map fst l) -> Permutation (std_set l k v) ((k, v) :: del l k).
Proof.
  induction l as [ | [k' v'] l IH]; intros ND; [reflexivity | ]. cbn [map fst] in ND. inversion ND as [ | x y N1 N2]; subst.
  cbn [std_set fst]. unfold m_del. cbn [filter fst]. destruct (key_spec k' k) as [-> | Hn]; cbn [negb].
  - fold (del l k). rewrite m_del_id; [reflexivity | exact key_eqb_ok | exact N1].
  - fold (del l k). rewrite perm_swap. apply perm_skip. exact (IH N2).
Qed.
Lemma del_nodup_cons (l : list (key * N)) k v : NoDup (map fst l) -> NoDup (map fst ((k, v) :: del l k)).
Proof.
  intros ND. cbn [map fst]. constructor; [ | apply m_del_nodup; [exact key_eqb_ok | exact ND]].
  intros Hi. apply in_map_iff in Hi. destruct Hi as ([k2 v2] & E & Hi). cbn in E. subst k2. apply (m_del_in _ key_eqb_ok) in Hi. tauto.
Qed.
Lemma getv_perm l l' k : NoDup (map fst l) -> Permutation l l' -> getv l k = getv l' k.
Proof. intros ND PM. unfold getv. rewrite (m_get_perm key_eqb key_eqb_ok l l' k ND PM). reflexivity. Qed.
Lemma getv_none l k : ~ In k (map fst l) -> getv l k = 0.
Proof. intros H. unfold getv. rewrite (proj2 (m_get_none key_eqb key_eqb_ok l k) H). reflexivity. Qed.
Lemma getv_in l k v : NoDup (map fst l) -> In (k, v) l -> getv l k = v.
Proof. intros ND H. unfold getv. rewrite (proj2 (m_get_in key_eqb key_eqb_ok l k v ND) H). reflexivity. Qed.

Definition std_R (st l : list (key * N)) : Prop := NoDup (map fst st) /\ Permutation st l.
Lemma std_ok ord e : (forall l, Permutation (ord l) l) -> map_ok (std_ipd ord) e std_R.
Proof.
  intros Ho.
  assert (A : forall S (f : S -> N -> S * N) s k st l, std_R st l ->
    exists st', i_access (std_ipd ord) f s k st = Some (fst (f s (getv l k)), snd (f s (getv l k)), st') /\ std_R st' ((k, snd (f s (getv l k))) :: del l k)).
  { intros S f s k st l [ND PM]. cbn [std_ipd i_access]. fold (getv st k). rewrite <- (getv_perm st l k ND PM).
    destruct (f s (getv st k)) as [s' v'] eqn:E. cbn [fst snd]. eexists. split; [reflexivity | ].
    pose proof (std_set_perm st k v' ND) as P. split.
    - eapply Permutation_NoDup; [apply Permutation_map, Permutation_sym, P | ]. apply del_nodup_cons. exact ND.
    - rewrite P. apply perm_skip. apply m_del_perm2. exact PM. }
  split.
  - intros c. split; [constructor | reflexivity].
  - intros st l [ND PM]. cbn [std_ipd i_all]. rewrite Ho. exact PM.
  - intros st l [ND PM]. eapply Permutation_NoDup; [apply Permutation_map, PM | exact ND].
  - intros st l l' [ND PM] P. split; [exact ND | rewrite PM; exact P].
  - intros S f s k st l H _. exact (A S f s k st l H).
  - intros S f s st l H Hn. destruct (A S f s e st l H) as (st' & E & R'). rewrite (getv_none l e Hn) in *.
    rewrite m_del_id in R' by (exact key_eqb_ok || exact Hn). exists st', ((e, snd (f s 0)) :: l). split; [exact E | ]. split; [exact R' | right; reflexivity].
Qed.

(** ** rigtorp::HashMap *)
Definition hash_R (hash : key -> nat) (e : key) (st : hm key N) (l : list (key * N)) : Prop :=
  exists B sz, st = mk_hm e B sz /\ okb key_eqb hash 0 e B sz /\ Permutation (ent key_eqb e B) l.
Lemma hash_ok hash e : map_ok (hash_ipd hash) e (hash_R hash e).
Proof.
  split.
  - intros c. destruct (new_ok key_eqb hash 0 key_eqb_ok e c) as (B & E & H & EN & _). exists B, 0%nat. split; [exact E | ]. split; [exact H | ].
    rewrite EN. reflexivity.
  - intros st l (B & sz & -> & H & PM). exact PM.
  - intros st l (B & sz & -> & H & PM). eapply Permutation_NoDup; [apply Permutation_map, PM | ].
    eapply (ent_nodup key_eqb hash 0 key_eqb_ok). apply H.
  - intros st l l' (B & sz & -> & H & PM) P. exists B, sz. split; [reflexivity | ]. split; [exact H | rewrite PM; exact P].
  - intros S f s k st l (B & sz & -> & H & PM) Hk.
    assert (ND : NoDup (map fst (ent key_eqb e B))) by (eapply (ent_nodup key_eqb hash 0 key_eqb_ok); apply H).
    destruct (access_ok key_eqb hash 0 key_eqb_ok e f s k B sz H Hk) as (B' & sz' & E & H' & _ & PM').
    fold (getv (ent key_eqb e B) k) in E, PM'. rewrite (getv_perm _ _ k ND PM) in E, PM'.
    exists (mk_hm e B' sz'). split; [exact E | ]. exists B', sz'. split; [reflexivity | ]. split; [exact H' | ].
    rewrite PM'. apply perm_skip. apply m_del_perm2. exact PM.
  - intros S f s st l (B & sz & -> & H & PM) Hn.
    destruct (access_empty key_eqb hash 0 key_eqb_ok e f s B sz H) as (B' & sz' & E & H' & PM').
    exists (mk_hm e B' sz'), l. split; [exact E | ]. split; [ | left; reflexivity].
    exists B', sz'. split; [reflexivity | ]. split; [exact H' | rewrite PM'; exact PM].
Qed.

(** ** What GrammarRules needs: accesses that leave a value above both parts of the key *)
Record gr_ok {St} (I : ipd St) (R : St -> list (key * N) -> Prop) : Prop := {
  go_new : R (i_new I 0 (2 ^ 64 - 1, 2 ^ 64 - 1)) [];
  go_all : forall st l, R st l -> Permutation (i_all I st) l;
  go_nodup : forall st l, R st l -> NoDup (map fst l);
  go_perm : forall st l l', R st l -> Permutation l l' -> R st l';
  go_acc : forall S (f : S -> N -> S * N) s k st l, R st l -> key_max k < snd (f s (getv l k)) -> snd (f s (getv l k)) < 2 ^ 56 ->
    exists st' r, i_access I f s k st = Some (fst (f s (getv l k)), r, st') /\ r = snd (f s (getv l k)) /\ R st' ((k, snd (f s (getv l k))) :: del l k) }.
Lemma map_gr_ok {St} (I : ipd St) R : map_ok I (2 ^ 64 - 1, 2 ^ 64 - 1) R -> gr_ok I R.
Proof.
  intros H. split; try apply H. intros S f s k st l HR H1 H2.
  destruct (mo_acc _ _ _ H S f s k st l HR) as (st' & E & R').
  - intros ->. unfold key_max in H1. cbn [fst snd] in H1. lia.
  - exists st', (snd (f s (getv l k))). auto.
Qed.

(** ** DynamicSizeIPD *)
Definition width8 (B : N) : Prop := B = 8 \/ B = 16 \/ B = 24 \/ B = 32 \/ B = 40 \/ B = 48 \/ B = 56.
Definition ones (B : N) : key := (2 ^ B - 1, 2 ^ B - 1).
Lemma map_width_ok bits : bits <= 56 -> exists nb, map_width bits = Some nb /\ width8 nb /\ bits <= nb.
Proof.
  intros H. unfold map_width, width8.
  repeat match goal with |- context [?a <=? ?b] => destruct (N.leb_spec a b); [eexists; split; [reflexivity | lia] | ] end. lia.
Qed.
Lemma bits_fit v B : 1 <= B -> (bits_for v <= B <-> v < 2 ^ B).
Proof.
  intros HB. split; intros H.
  - pose proof (bits_for_bound v). pose proof (N.pow_le_mono_r 2 (bits_for v) B). lia.
  - apply bits_for_min; assumption.
Qed.
Definition E64 : key := (2 ^ 64 - 1, 2 ^ 64 - 1).
Lemma ones_cast B : width8 B -> cast2 B E64 = ones B.
Proof. intros H. unfold width8 in H. repeat (destruct H as [-> | H]; [reflexivity | ]). subst. reflexivity. Qed.
Lemma cast_small B k : key_max k < 2 ^ B -> cast2 B k = k.
Proof.
  unfold key_max, cast2. destruct k as [a b]. cbn [fst snd]. intros H.
  rewrite !N.mod_small by lia. reflexivity.
Qed.
Lemma width8_pos B : width8 B -> 8 <= B <= 56.
Proof. unfold width8. lia. Qed.
Lemma pow_lt_56 B v : v < 2 ^ 56 -> 2 ^ B <= v + 1 -> v + 1 < 2 ^ 56 \/ B <= 56.
Proof.
  intros H1 H2. right. destruct (N.le_gt_cases B 56) as [L | L]; [exact L | ]. pose proof (N.pow_le_mono_r 2 57 B). 
  change (2 ^ 57) with (2 * 2 ^ 56) in H. lia.
Qed.

Section DYNP.
  Context {St : Type} (inner : N -> ipd St) (R : N -> St -> list (key * N) -> Prop).
  Hypothesis HI : forall B, width8 B -> map_ok (inner B) (ones B) (R B).

  Lemma mapof_ok B (HB : width8 B) S (f : S -> N -> S * N) s k st l : R B st l -> key_max k < 2 ^ B -> k <> ones B ->
    snd (f s (getv l k)) < 2 ^ B ->
    exists st', mapof_access inner f s k (mk_dyn E64 B st) = Some (fst (f s (getv l k)), snd (f s (getv l k)), mk_dyn E64 B st') /\
      R B st' ((k, snd (f s (getv l k))) :: del l k).
  Proof.
    intros HR Hk Hn Hv. unfold mapof_access. cbn [d_bits d_map d_empty]. rewrite (cast_small B k Hk).
    destruct (mo_acc _ _ _ (HI B HB) S (fun s v => let (s', v') := f s v in (s', v' mod 2 ^ B)) s k st l HR Hn) as (st' & E & R').
    rewrite E. cbn [obind]. destruct (f s (getv l k)) as [s' v'] eqn:Ef. cbn [fst snd] in *. rewrite N.mod_small in * by exact Hv.
    exists st'. auto.
  Qed.

  (** entries as GrammarRules makes them *)
  Definition small (B : N) (l : list (key * N)) : Prop := forall k v, In (k, v) l -> key_max k < v < 2 ^ B.
  Lemma copy_ok B (HB : width8 B) : forall L st l, R B st l -> NoDup (map fst (L ++ l)) ->
    (forall k v, In (k, v) L -> key_max k < 2 ^ B /\ k <> ones B /\ v < 2 ^ B) ->
    exists st', fold_left (fun o e => do o <- o; do (_, _, o') <- mapof_access inner (fun (_ : unit) _ => (tt, snd e)) tt (fst e) o; Some o') L
        (Some (mk_dyn E64 B st)) = Some (mk_dyn E64 B st') /\ R B st' (L ++ l).
  Proof.
    induction L as [ | [k v] L IH]; intros st l HR ND HL; cbn [fold_left].
    - exists st. auto.
    - cbn [obind fst snd].
      destruct (HL k v (or_introl eq_refl)) as (H1 & H2 & H3).
      destruct (mapof_ok B HB unit (fun _ _ => (tt, v)) tt k st l HR H1 H2 H3) as (st1 & E1 & R1). rewrite E1. cbn [obind snd] in *.
      cbn [app map fst] in ND. assert (Nk : ~ In k (map fst (L ++ l))) by (inversion ND; assumption).
      rewrite m_del_id in R1; [ | exact key_eqb_ok | intros Hi; apply Nk; rewrite map_app, in_app_iff; right; exact Hi].
      destruct (IH st1 ((k, v) :: l) R1) as (st2 & E2 & R2).
      + eapply (Permutation_NoDup (l := map fst (((k, v) :: L) ++ l))); [apply Permutation_map; cbn [app]; apply Permutation_middle | exact ND].
      + intros k' v' Hi. apply HL. right. exact Hi.
      + exists st2. split; [exact E2 | ]. eapply (mo_perm _ _ _ (HI B HB)); [exact R2 | ]. cbn [app]. symmetry. apply Permutation_middle.
  Qed.
  Lemma resize_ok B (HB : width8 B) st l bits : R B st l -> bits <= 56 ->
    (forall nb k v, width8 nb -> bits <= nb -> In (k, v) l -> key_max k < 2 ^ nb /\ k <> ones nb /\ v < 2 ^ nb) ->
    exists nb st', dyn_resize inner (mk_dyn E64 B st) bits = Some (mk_dyn E64 nb st') /\ width8 nb /\ bits <= nb /\ R nb st' l.
  Proof.
    intros HR Hb HL. destruct (map_width_ok bits Hb) as (nb & E & W & Hn). unfold dyn_resize. rewrite E. cbn [obind d_bits d_map d_empty].
    unfold new_map. rewrite (ones_cast nb W). pose proof (mo_all _ _ _ (HI B HB) _ _ HR) as PM.
    assert (ND : NoDup (map fst (i_all (inner B) st))).
    { eapply Permutation_NoDup; [apply Permutation_map, Permutation_sym, PM | exact (mo_nodup _ _ _ (HI B HB) _ _ HR)]. }
    destruct (copy_ok nb W (i_all (inner B) st) (i_new (inner nb) (i_size (inner B) st) (ones nb)) []) as (st' & E' & R').
    - apply (mo_new _ _ _ (HI nb W)).
    - rewrite app_nil_r. exact ND.
    - intros k v Hi. apply (HL nb k v W Hn). eapply Permutation_in; [exact PM | exact Hi].
    - exists nb, st'. split; [exact E' | ]. split; [exact W | ]. split; [exact Hn | ].
      eapply (mo_perm _ _ _ (HI nb W)); [exact R' | ]. rewrite app_nil_r. exact PM.
  Qed.

  Definition dyn_R (d : dynst St) (l : list (key * N)) : Prop :=
    d_empty d = E64 /\ width8 (d_bits d) /\ R (d_bits d) (d_map d) l /\ small (d_bits d) l.

  Lemma not_ones B k v : key_max k < v -> v < 2 ^ B -> k <> ones B.
  Proof. intros H1 H2 ->. unfold key_max, ones in H1. cbn [fst snd] in H1. lia. Qed.

  (** the first step of [dyn_access] *)
  Lemma fit_key_ok B st l k : width8 B -> R B st l -> small B l -> key_max k < 2 ^ 56 - 1 ->
    exists B1 st1, (if can_fit_key (mk_dyn E64 B st) k then Some (mk_dyn E64 B st) else resize_key inner (mk_dyn E64 B st) k) = Some (mk_dyn E64 B1 st1) /\
      width8 B1 /\ R B1 st1 l /\ small B1 l /\ key_max k < 2 ^ B1.
  Proof.
    intros W HR HS Hk. pose proof (width8_pos B W) as WP. unfold can_fit_key. cbn [d_bits d_empty]. rewrite (ones_cast B W).
    assert (RS : (B + 1 <= 56) -> exists B1 st1, resize_key inner (mk_dyn E64 B st) k = Some (mk_dyn E64 B1 st1) /\
      width8 B1 /\ R B1 st1 l /\ small B1 l /\ key_max k < 2 ^ B1).
    { intros HB. unfold resize_key. cbn [d_bits].
      assert (HK : bits_for (key_max k) <= 56) by (apply bits_fit; lia).
      destruct (resize_ok B W st l (N.max (bits_for (key_max k)) (B + 1)) HR) as (nb & st' & E & W' & Hn & R').
      - lia.
      - intros nb k' v' W' Hn Hi. destruct (HS k' v' Hi) as [H1 H2].
        assert (v' < 2 ^ nb) by (pose proof (N.pow_le_mono_r 2 B nb); lia).
        split; [lia | ]. split; [eapply not_ones; eassumption | assumption].
      - exists nb, st'. split; [exact E | ]. split; [exact W' | ]. split; [exact R' | ]. split.
        + intros k' v' Hi. destruct (HS k' v' Hi) as [H1 H2]. pose proof (N.pow_le_mono_r 2 B nb). lia.
        + apply bits_fit; [pose proof (width8_pos nb W'); lia | lia]. }
    destruct (key_spec (cast2 B k) (ones B)) as [Eo | No].
    - apply RS. injection Eo as E1 E2.
      assert (2 ^ B - 1 <= key_max k).
      { unfold key_max. pose proof (N.mod_le (fst k) (2 ^ B)). pose proof (N.pow_nonzero 2 B). lia. }
      destruct (N.eq_dec B 56) as [-> | ]; lia.
    - destruct (N.leb_spec (bits_for (key_max k)) B) as [L | L].
      + exists B, st. split; [reflexivity | ]. split; [exact W | ]. split; [exact HR | ]. split; [exact HS | ]. apply bits_fit; lia.
      + apply RS. assert (bits_for (key_max k) <= 56) by (apply bits_fit; lia). lia.
  Qed.

  Lemma dyn_acc_ok S (f : S -> N -> S * N) s k d l : dyn_R d l -> key_max k < snd (f s (getv l k)) -> snd (f s (getv l k)) < 2 ^ 56 ->
    exists d', dyn_access inner f s k d = Some (fst (f s (getv l k)), snd (f s (getv l k)), d') /\ dyn_R d' ((k, snd (f s (getv l k))) :: del l k).
  Proof.
    intros (HE & W & HR & HS) H1 H2. destruct d as [e B st]. cbn [d_empty d_bits d_map] in *. subst e.
    unfold dyn_access. destruct (fit_key_ok B st l k W HR HS) as (B1 & st1 & E & W1 & R1 & S1 & K1); [lia | ].
    rewrite E. clear E HS HR W B st. cbn [obind].
    pose proof (width8_pos B1 W1) as WP.
    set (F := fun (c : S * N * bool) (v : N) => let '(s0, _, _) := c in let (s', copy) := f s0 v in
                if can_fit_value (mk_dyn E64 B1 st1) copy then ((s', copy, false), copy) else ((s', copy, true), v)).
    set (v := getv l k) in *. destruct (f s v) as [s' v'] eqn:Ef. cbn [fst snd] in *.
    assert (HF : F (s, 0, false) v = if can_fit_value (mk_dyn E64 B1 st1) v' then ((s', v', false), v') else ((s', v', true), v)).
    { unfold F. rewrite Ef. reflexivity. }
    unfold can_fit_value in HF at 1. cbn [d_bits] in HF.
    assert (Hv : v < 2 ^ B1).
    { unfold v, getv. destruct (m_get key_eqb l k) as [w | ] eqn:G; [ | pose proof (N.pow_nonzero 2 B1); lia].
      apply (m_get_in key_eqb key_eqb_ok) in G; [exact (proj2 (S1 k w G)) | ]. exact (mo_nodup _ _ _ (HI B1 W1) _ _ R1). }
    assert (SD : forall nb, B1 <= nb -> v' < 2 ^ nb -> small nb ((k, v') :: del l k)).
    { intros nb Hn Hv2 k2 v2 [[= <- <-] | Hi]; [auto | ]. apply (m_del_in _ key_eqb_ok) in Hi. destruct (S1 k2 v2 (proj2 Hi)).
      pose proof (N.pow_le_mono_r 2 B1 nb). lia. }
    (* the end of the access after the value did not fit *)
    assert (FIN : forall st2 l2, R B1 st2 l2 -> 2 ^ B1 <= v' -> (forall k2 v2, In (k2, v2) l2 -> (k2 = k /\ v2 < 2 ^ B1) \/ (k2 <> k /\ In (k2, v2) l)) ->
      Permutation (del l2 k) (del l k) ->
      exists d', (do d2 <- resize_val inner (mk_dyn E64 B1 st2) v'; do (_, _, d3) <- mapof_access inner (fun (_ : unit) _ => (tt, v')) tt k d2; Some (s', v', d3)) =
         Some (s', v', d') /\ dyn_R d' ((k, v') :: del l k)).
    { intros st2 l2 R2 Hb HL HD. unfold resize_val. cbn [d_bits].
      assert (HK : bits_for v' <= 56) by (apply bits_fit; lia).
      assert (HB1 : B1 + 1 <= 56). { destruct (N.eq_dec B1 56) as [-> | ]; lia. }
      destruct (resize_ok B1 W1 st2 l2 (N.max (bits_for v') (B1 + 1)) R2) as (nb & st3 & E & W' & Hn & R3).
      - lia.
      - intros nb k2 v2 W' Hn Hi. assert (Hv3 : v' < 2 ^ nb) by (apply bits_fit; [pose proof (width8_pos nb W') | ]; lia).
        assert (2 ^ B1 <= 2 ^ nb) by (apply N.pow_le_mono_r; lia).
        destruct (HL k2 v2 Hi) as [[-> Hv2] | [_ Hi2]].
        + split; [lia | ]. split; [apply (not_ones nb k v'); assumption | lia].
        + destruct (S1 k2 v2 Hi2). split; [lia | ]. split; [apply (not_ones nb k2 v2); lia | lia].
      - rewrite E. cbn [obind].
        assert (Hv3 : v' < 2 ^ nb) by (apply bits_fit; [pose proof (width8_pos nb W') | ]; lia).
        destruct (mapof_ok nb W' unit (fun _ _ => (tt, v')) tt k st3 l2 R3) as (st4 & E4 & R4); [lia | apply (not_ones nb k v'); assumption | exact Hv3 | ].
        rewrite E4. cbn [obind snd] in *. eexists. split; [reflexivity | ]. split; [reflexivity | ]. split; [exact W' | ]. split; [ | cbn [d_bits]; apply SD; [lia | exact Hv3]].
        cbn [d_bits d_map]. eapply (mo_perm _ _ _ (HI nb W')); [exact R4 | ]. apply perm_skip. exact HD. }
    destruct (key_spec k (ones B1)) as [Ko | Kn].
    - (* the key of the empty slots: the value is too large *)
      assert (Hb : 2 ^ B1 <= v'). { rewrite Ko in H1. unfold key_max, ones in H1. cbn [fst snd] in H1. lia. }
      assert (NI : ~ In k (map fst l)).
      { intros Hi. apply in_map_iff in Hi. destruct Hi as ([k2 v2] & E2 & Hi). cbn in E2. subst k2. destruct (S1 k v2 Hi) as [X1 X2].
        exact (not_ones B1 k v2 X1 X2 Ko). }
      assert (V0 : v = 0) by (apply getv_none; exact NI).
      unfold mapof_access at 1. cbn [d_bits d_map d_empty]. rewrite (cast_small B1 k K1).
      assert (NI' : ~ In (ones B1) (map fst l)) by (rewrite <- Ko; exact NI).
      destruct (mo_acc_e _ _ _ (HI B1 W1) _ (fun s0 v0 => let (s'0, v'0) := F s0 v0 in (s'0, v'0 mod 2 ^ B1)) (s, 0, false) st1 l R1 NI') as (st2 & l2 & E2 & R2 & C).
      rewrite V0 in HF. cbn beta in E2, C. rewrite HF in E2, C.
      destruct (N.leb_spec (bits_for v') B1) as [L | L]; [exfalso; assert (v' < 2 ^ B1) by (apply bits_fit; lia); lia | ].
      cbn [fst snd] in E2, C. rewrite Ko. rewrite E2. cbn [obind]. rewrite <- Ko.
      apply (FIN st2 l2 R2 Hb).
      + intros k2 v2 Hi. destruct C as [-> | ->].
        * right. split; [ | exact Hi]. intros ->. apply NI. apply in_map_iff. exists (k, v2). auto.
        * destruct Hi as [[= <- <-] | Hi].
          -- left. split; [symmetry; exact Ko | ]. rewrite N.mod_small; pose proof (N.pow_nonzero 2 B1); lia.
          -- right. split; [ | exact Hi]. intros ->. apply NI. apply in_map_iff. exists (k, v2). auto.
      + destruct C as [-> | ->]; [reflexivity | ]. unfold m_del at 1. cbn [filter fst]. rewrite <- Ko.
        destruct (key_spec k k); [ | contradiction]. cbn [negb]. reflexivity.
    - destruct (mapof_ok B1 W1 _ F (s, 0, false) k st1 l R1 K1 Kn) as (st2 & E2 & R2).
      { fold v. rewrite HF. destruct (N.leb_spec (bits_for v') B1); cbn [snd]; [apply bits_fit; lia | exact Hv]. }
      fold v in E2, R2. rewrite HF in E2, R2. rewrite E2. cbn [obind].
      destruct (N.leb_spec (bits_for v') B1) as [L | L]; cbn [fst snd] in *.
      + eexists. split; [reflexivity | ]. split; [reflexivity | ]. split; [exact W1 | ]. split; [exact R2 | ]. cbn [d_bits]. apply SD; [reflexivity | apply bits_fit; lia].
      + apply (FIN st2 _ R2).
        * destruct (N.le_gt_cases (2 ^ B1) v') as [X | X]; [exact X | ]. apply bits_fit in X; lia.
        * intros k2 v2 [[= <- <-] | Hi]; [left; auto | ]. apply (m_del_in _ key_eqb_ok) in Hi. right. exact Hi.
        * unfold m_del at 1. cbn [filter fst]. destruct (key_spec k k); [ | contradiction]. cbn [negb]. fold (del (del l k) k).
          rewrite (m_del_id key_eqb key_eqb_ok (del l k) k); [reflexivity | ].
          intros Hi. apply in_map_iff in Hi. destruct Hi as ([k2 v2] & E3 & Hi). cbn in E3. subst k2. apply (m_del_in _ key_eqb_ok) in Hi. tauto.
  Qed.
  Lemma dyn_ok : gr_ok (dyn_ipd inner) dyn_R.
  Proof.
    assert (W8 : width8 8) by (left; reflexivity).
    split.
    - split; [reflexivity | ]. split; [exact W8 | ]. split; [apply (mo_new _ _ _ (HI 8 W8)) | ]. intros k v [].
    - intros d l (HE & W & HR & HS). apply (mo_all _ _ _ (HI _ W)). exact HR.
    - intros d l (HE & W & HR & HS). exact (mo_nodup _ _ _ (HI _ W) _ _ HR).
    - intros d l l' (HE & W & HR & HS) PM. split; [exact HE | ]. split; [exact W | ]. split; [eapply (mo_perm _ _ _ (HI _ W)); eassumption | ].
      intros k v Hi. apply HS. eapply Permutation_in; [apply Permutation_sym, PM | exact Hi].
    - intros S f s k d l H H1 H2. destruct (dyn_acc_ok S f s k d l H H1 H2) as (d' & E & R'). exists d', (snd (f s (getv l k))). auto.
  Qed.
End DYNP.

(** ** GrammarRules and the rounds over any such map *)
Fixpoint zk (n : N) (keys : list key) : list (key * N) :=
  match keys with [] => [] | k :: keys => (k, n) :: zk (n + 1) keys end.
Lemma zk_app n a b : zk n (a ++ b) = zk n a ++ zk (n + N.of_nat (length a)) b.
Proof.
  revert n. induction a as [ | k a IH]; intros n; cbn [app zk length]; [rewrite N.add_0_r; reflexivity | ].
  rewrite IH. replace (n + 1 + N.of_nat (length a)) with (n + N.of_nat (S (length a))) by lia. reflexivity.
Qed.
Lemma zk_get n keys k : m_get key_eqb (zk n keys) k = option_map (fun i => n + N.of_nat i) (key_index k keys).
Proof.
  revert n. induction keys as [ | k' keys IH]; intros n; [reflexivity | ]. cbn [zk m_get key_index].
  fold (key_eqb k' k). destruct (key_eqb k' k); cbn [option_map]; [f_equal; lia | ].
  rewrite IH. destruct (key_index k keys); cbn [option_map]; [f_equal; lia | reflexivity].
Qed.
Lemma zk_keys n keys : map fst (zk n keys) = keys.
Proof. revert n. induction keys as [ | k keys IH]; intros n; cbn [zk map fst]; [reflexivity | f_equal; apply IH]. Qed.
Lemma zk_in n keys k v : In (k, v) (zk n keys) <-> exists i, nth_error keys i = Some k /\ v = n + N.of_nat i.
Proof.
  revert n. induction keys as [ | k' keys IH]; intros n; cbn [zk In].
  - split; [intros [] | intros (i & H & _); destruct i; discriminate].
  - rewrite IH. split.
    + intros [[= -> ->] | (i & H & ->)]; [exists 0%nat; cbn; split; [reflexivity | lia] | exists (S i); cbn; split; [exact H | lia]].
    + intros ([ | i] & H & ->); cbn in H; [left; injection H as ->; f_equal; lia | right; exists i; split; [exact H | lia]].
Qed.
Lemma zk_vals_nodup n keys : NoDup (map snd (zk n keys)) /\ forall v, In v (map snd (zk n keys)) -> n <= v.
Proof.
  revert n. induction keys as [ | k keys IH]; intros n; cbn [zk map snd].
  - split; [constructor | intros v []].
  - destruct (IH (n + 1)) as [A B]. split.
    + constructor; [ | exact A]. intros Hi. specialize (B n Hi). lia.
    + intros v [<- | Hi]; [lia | ]. specialize (B v Hi). lia.
Qed.

Ltac ns := match goal with |- (?i < length ?l)%nat => apply nth_error_Some; let X := fresh in intros X;
  match goal with H : nth_error _ i = Some _ |- _ => pose proof (eq_trans (eq_sym X) H); discriminate end end.
Lemma gr_updater_old c v : v <> 0 -> gr_updater c v = (c, v).
Proof. intros H. unfold gr_updater. destruct (N.eqb_spec v 0); [contradiction | reflexivity]. Qed.
Section GRP.
  Context {St : Type} (I : ipd St) (R : St -> list (key * N) -> Prop) (HI : gr_ok I R).

  Definition GR (start : N) (g : gr St) (keys : list key) : Prop :=
    g_counter g = start + 1 + N.of_nat (length keys) /\ R (g_n2 g) (zk (start + 1) keys).
  Lemma gri_access_ok start g keys a b : GR start g keys -> keys_ok start keys -> a < start + N.of_nat (length keys) -> b < start ->
    start + N.of_nat (length keys) + 1 < 2 ^ 56 ->
    exists g', gri_access I g (a, b) = Some (fst (gr_access start keys (a, b)), g') /\ GR start g' (snd (gr_access start keys (a, b))).
  Proof.
    intros [HC HR] HK Ha Hb HL. unfold gri_access.
    pose proof (go_acc _ _ HI N gr_updater (g_counter g) (a, b) (g_n2 g) _ HR) as A.
    unfold getv in A. rewrite zk_get in A. unfold gr_access. destruct (key_index (a, b) keys) as [i | ] eqn:Ei; cbn [option_map] in A.
    - pose proof (key_index_some _ _ _ Ei) as Ki. destruct (HK i a b Ki) as [H1 H2].
      assert (Hi : (i < length keys)%nat) by ns.
      rewrite (gr_updater_old (g_counter g) (start + 1 + N.of_nat i)) in A by lia. cbn [fst snd] in A.
      destruct A as (st' & r & E & -> & R'); [unfold key_max; cbn [fst snd]; lia | lia | ].
      rewrite E. cbn [obind fst snd]. eexists. split; [reflexivity | ]. split; [exact HC | ]. cbn [g_n2].
      eapply (go_perm _ _ HI); [exact R' | ]. symmetry. apply (m_del_perm key_eqb key_eqb_ok).
      + rewrite zk_keys. rewrite <- (zk_keys (start + 1) keys). exact (go_nodup _ _ HI _ _ HR).
      + apply zk_in. exists i. auto.
    - change (gr_updater (g_counter g) 0) with (g_counter g + 1, g_counter g) in A. cbn [fst snd] in A. rewrite HC in A.
      destruct A as (st' & r & E & -> & R'); [unfold key_max; cbn [fst snd]; lia | lia | ].
      rewrite HC, E. cbn [obind fst snd]. eexists. split; [reflexivity | ]. split.
      + cbn [g_counter]. rewrite app_length. cbn [length]. lia.
      + cbn [g_n2]. eapply (go_perm _ _ HI); [exact R' | ]. rewrite zk_app. cbn [zk].
        rewrite (m_del_id key_eqb key_eqb_ok).
        * apply Permutation_cons_append.
        * apply (m_get_none key_eqb key_eqb_ok). rewrite zk_get, Ei. reflexivity.
  Qed.
  Lemma gri_add_ok start g keys v r keys' : GR start g keys -> keys_ok start keys -> Forall (fun x => x < start) v ->
    gr_add start keys v = Some (r, keys') -> start + N.of_nat (length keys') + 1 < 2 ^ 56 ->
    (exists g', gri_add I g v = Some (r, g') /\ GR start g' keys') /\ keys_ok start keys' /\ (length keys <= length keys')%nat /\
    start <= r < start + N.of_nat (length keys').
  Proof.
    intros HG HK HF E HL. destruct v as [ | a [ | b [ | c [ | d v]]]]; try discriminate; cbn [gr_add] in E.
    - inversion HF as [ | x y Ha HF2]; subst. inversion HF2 as [ | x y Hb _]; subst.
      destruct (gr_access_ok start keys a b HK) as (i & k1 & E1 & K1 & N1 & e & -> & _); [lia | exact Hb | auto | ].
      rewrite E1 in E. injection E as <- <-.
      assert (Hi : (i < length (keys ++ e))%nat) by ns.
      destruct (gri_access_ok start g keys a b HG HK) as (g' & E2 & G2); [lia | exact Hb | rewrite app_length in HL; lia | ].
      rewrite E1 in E2, G2. cbn [fst snd] in *. split; [exists g'; split; [exact E2 | exact G2] | ]. split; [exact K1 | ]. rewrite app_length in *. lia.
    - inversion HF as [ | x y Ha HF2]; subst. inversion HF2 as [ | x y Hb HF3]; subst. inversion HF3 as [ | x y Hc _]; subst.
      destruct (gr_access_ok start keys a b HK) as (i & k1 & E1 & K1 & N1 & e & -> & _); [lia | exact Hb | auto | ].
      rewrite E1 in E. apply Some_inj in E.
      assert (Hi : (i < length (keys ++ e))%nat) by ns.
      destruct (gr_access_ok start (keys ++ e) (start + N.of_nat i) c K1) as (j & k2 & E2 & K2 & N2 & e2 & -> & _); [lia | exact Hc | auto | ].
      rewrite E2 in E. injection E as <- <-.
      assert (Hj : (j < length ((keys ++ e) ++ e2))%nat) by ns.
      destruct (gri_access_ok start g keys a b HG HK) as (g1 & F1 & G1); [lia | exact Hb | rewrite !app_length in HL; lia | ].
      rewrite E1 in F1, G1. cbn [fst snd] in *.
      destruct (gri_access_ok start g1 (keys ++ e) (start + N.of_nat i) c G1 K1) as (g2 & F2 & G2); [lia | exact Hc | rewrite app_length in HL; lia | ].
      rewrite E2 in F2, G2. cbn [fst snd] in *.
      split; [exists g2; cbn [gri_add]; rewrite F1; cbn [obind]; split; [exact F2 | exact G2] | ]. split; [exact K2 | ]. rewrite !app_length in *. lia.
  Qed.
  Lemma gr_add_len start keys v r keys' : gr_add start keys v = Some (r, keys') -> (length keys <= length keys')%nat.
  Proof.
    assert (A : forall keys k, (length keys <= length (snd (gr_access start keys k)))%nat).
    { intros ks k. unfold gr_access. destruct (key_index k ks); cbn [snd]; [lia | rewrite app_length; lia]. }
    destruct v as [ | a [ | b [ | c [ | d v]]]]; try discriminate; cbn [gr_add]; intros E.
    - specialize (A keys (a, b)). injection E as E. rewrite E in A. exact A.
    - pose proof (A keys (a, b)) as A1. destruct (gr_access start keys (a, b)) as [r1 k1]. cbn [snd] in A1.
      pose proof (A k1 (r1, c)) as A2. injection E as E. rewrite E in A2. cbn [snd] in A2. lia.
  Qed.
  Lemma layer_len start width : forall bs keys s l keys', layer start width keys s bs = Some (l, keys') -> (length keys <= length keys')%nat.
  Proof.
    induction bs as [ | [len t] bs IH]; intros keys s l keys' E; cbn [layer] in E.
    - injection E as _ <-. lia.
    - destruct (gr_add start keys (firstn len s)) as [[r k1] | ] eqn:E1; [ | discriminate]. cbn [obind] in E.
      destruct (layer start width k1 (skipn len s) bs) as [[l2 k2] | ] eqn:E2; [ | discriminate]. cbn [obind] in E. injection E as _ <-.
      pose proof (gr_add_len _ _ _ _ _ E1). pose proof (IH _ _ _ _ E2). lia.
  Qed.
  Lemma layeri_ok start width : forall bs g keys s l keys', GR start g keys -> keys_ok start keys -> Forall (fun x => x < start) s ->
    layer start width keys s bs = Some (l, keys') -> start + N.of_nat (length keys') + 1 < 2 ^ 56 ->
    (exists g', layeri I start width g s bs = Some (l, g') /\ GR start g' keys') /\ Forall (fun x => x < N.of_nat (length keys')) l.
  Proof.
    induction bs as [ | [len t] bs IH]; intros g keys s l keys' HG HK HF E HL; cbn [layer layeri] in *.
    - injection E as <- <-. split; [exists g; auto | constructor].
    - destruct (gr_add start keys (firstn len s)) as [[r k1] | ] eqn:E1; [ | discriminate]. cbn [obind] in E.
      destruct (layer start width k1 (skipn len s) bs) as [[l2 k2] | ] eqn:E2; [ | discriminate]. cbn [obind] in E. injection E as <- <-.
      pose proof (layer_len _ _ _ _ _ _ _ E2) as Hk.
      destruct (gri_add_ok start g keys _ r k1 HG HK (Forall_firstn' _ len _ HF) E1) as ((g1 & F1 & G1) & K1 & L1 & Hr); [lia | ].
      destruct (IH g1 k1 (skipn len s) l2 k2 G1 K1 (Forall_skipn' _ len _ HF) E2 HL) as ((g2 & F2 & G2) & FL).
      rewrite F1. cbn [obind]. rewrite F2. cbn [obind]. split; [exists g2; auto | ]. constructor; [ | exact FL].
      pose proof (N.mod_le (r - start) (2 ^ width)). pose proof (N.pow_nonzero 2 width). lia.
  Qed.

  (** the rules array *)
  Definition wr (base prev start : N) (e : key * N) : nat * (N * N) :=
    (N.to_nat (base + (snd e - (start + 1)) - 256), (fst (fst e) + prev, snd (fst e) + prev)).
  Lemma fill_fold {A} : forall (W : list (nat * A)) arr, NoDup (map fst W) -> (forall i x, In (i, x) W -> (i < length arr)%nat) ->
    exists res, fold_left (fun o w => do rv <- o; if (fst w <? length rv)%nat then Some (upd rv (fst w) (snd w)) else None) W (Some arr) = Some res /\
      length res = length arr /\ (forall i x, In (i, x) W -> nth_error res i = Some x) /\ (forall i, ~ In i (map fst W) -> nth_error res i = nth_error arr i).
  Proof.
    induction W as [ | [i x] W IH]; intros arr ND HB; cbn [fold_left map fst snd] in *.
    - exists arr. split; [reflexivity | ]. split; [reflexivity | ]. split; [intros i x [] | auto].
    - inversion ND as [ | y z N1 N2]; subst. cbn [obind]. pose proof (HB i x (or_introl eq_refl)) as Hi.
      destruct (Nat.ltb_spec i (length arr)) as [_ | ]; [ | lia].
      destruct (IH (upd arr i x) N2) as (res & E & L & P & Q).
      { intros j y Hj. rewrite upd_length. apply (HB j y). right. exact Hj. }
      rewrite upd_length in L. exists res. split; [exact E | ]. split; [exact L | ]. split.
      + intros j y [[= <- <-] | Hj]; [ | exact (P j y Hj)]. rewrite (Q i N1). apply nth_error_upd_eq. exact Hi.
      + intros j Hj. rewrite Q by (intros X; apply Hj; right; exact X). apply nth_error_upd_ne. intros ->. apply Hj. left. reflexivity.
  Qed.
  Lemma store_ok rules start prev g keys : GR start g keys ->
    store_rules I rules start prev g = Some (rules ++ shift prev keys).
  Proof.
    intros [HC HR]. unfold store_rules. set (base := 256 + N.of_nat (length rules)).
    replace (N.to_nat (g_counter g - (start + 1))) with (length keys) by lia.
    set (arr := rules ++ repeat (0, 0) (length keys)).
    pose proof (go_all _ _ HI _ _ HR) as PM.
    assert (FE : forall W o, fold_left (fun o e => do rv <- o;
        let i := N.to_nat (base + (snd e - (start + 1)) - 256) in
        if (i <? length rv)%nat then Some (upd rv i (fst (fst e) + prev, snd (fst e) + prev)) else None) W o =
      fold_left (fun o w => do rv <- o; if (fst w <? length rv)%nat then Some (upd rv (fst w) (snd w)) else None) (map (wr base prev start) W) o).
    { induction W as [ | w W IH]; intros o; [reflexivity | ]. cbn [fold_left map]. rewrite IH. reflexivity. }
    rewrite FE. clear FE.
    assert (IN : forall i x, In (i, x) (map (wr base prev start) (i_all I (g_n2 g))) <->
              exists j k, nth_error keys j = Some k /\ i = (length rules + j)%nat /\ x = (fst k + prev, snd k + prev)).
    { intros i x. rewrite in_map_iff. split.
      - intros ([k v] & E & Hi). apply (Permutation_in _ PM) in Hi. apply zk_in in Hi. destruct Hi as (j & Hj & ->).
        unfold wr in E. cbn [fst snd] in E. injection E as <- <-. exists j, k. split; [exact Hj | ]. split; [unfold base; lia | reflexivity].
      - intros (j & k & Hj & -> & ->). exists (k, start + 1 + N.of_nat j). split.
        + unfold wr. cbn [fst snd]. f_equal. unfold base. lia.
        + apply (Permutation_in _ (Permutation_sym PM)). apply zk_in. exists j. auto. }
    destruct (fill_fold (map (wr base prev start) (i_all I (g_n2 g))) arr) as (res & E & L & P & Q).
    - eapply (Permutation_NoDup (l := map fst (map (wr base prev start) (zk (start + 1) keys)))); [apply Permutation_map, Permutation_map, Permutation_sym, PM | ].
      rewrite map_map. rewrite (map_ext _ (fun e => N.to_nat (base + (snd e - (start + 1)) - 256))) by reflexivity.
      rewrite <- (map_map snd (fun v => N.to_nat (base + (v - (start + 1)) - 256))).
      pose proof (zk_vals_nodup (start + 1) keys) as [A B]. revert A B. generalize (map snd (zk (start + 1) keys)) as vs. clear. intros vs. unfold base.
      induction vs as [ | v vs IH]; intros ND HB; cbn [map]; [constructor | ]. inversion ND as [ | x y N1 N2]; subst. constructor.
      + intros Hi. apply in_map_iff in Hi. destruct Hi as (w & E & Hw). pose proof (HB v (or_introl eq_refl)). pose proof (HB w (or_intror Hw)).
        assert (w = v) by lia. subst w. contradiction.
      + apply IH; [exact N2 | ]. intros w Hw. apply HB. right. exact Hw.
    - intros i x Hi. apply IN in Hi. destruct Hi as (j & k & Hj & -> & _). assert (j < length keys)%nat by ns.
      unfold arr. rewrite app_length, repeat_length. lia.
    - rewrite E. f_equal. unfold arr in L. rewrite app_length, repeat_length in L.
      apply nth_error_ext. intros i. destruct (Nat.lt_ge_cases i (length rules)) as [Hl | Hl].
      + rewrite Q; [unfold arr; rewrite !nth_error_app1 by exact Hl; reflexivity | ].
        intros Hi. apply in_map_iff in Hi. destruct Hi as ([i2 x] & E2 & Hi). cbn in E2. subst i2. apply IN in Hi. destruct Hi as (j & k & _ & -> & _). lia.
      + rewrite nth_error_app2 by exact Hl. unfold shift. rewrite nth_error_map.
        destruct (nth_error keys (i - length rules)) as [k | ] eqn:Ek; cbn [option_map].
        * apply P. apply IN. exists (i - length rules)%nat, k. split; [exact Ek | ]. split; [lia | reflexivity].
        * apply nth_error_None in Ek. apply nth_error_None. lia.
  Qed.

  Lemma gr_new_ok start : GR start (gr_new I start) [].
  Proof. split; [cbn; lia | ]. apply (go_new _ _ HI). Qed.
  Lemma rounds_len : forall fuel rules prev start s g, rounds fuel rules prev start s = Some g -> (length rules <= length (s_rules g))%nat.
  Proof.
    induction fuel as [ | f IH]; intros rules prev start s g E.
    - destruct s as [ | x [ | y s]]; cbn [rounds] in E; try discriminate; injection E as <-; cbn [s_rules]; lia.
    - destruct s as [ | x [ | y s]]; cbn [rounds] in E; try (injection E as <-; cbn [s_rules]; lia).
      destruct (split _ _ _) as [b0 | ]; [ | discriminate]. cbn [obind] in E. destruct (adjust_blocks b0) as [bs | ]; [ | discriminate]. cbn [obind] in E.
      destruct (layer _ _ _ _ _) as [[l keys] | ]; [ | discriminate]. cbn [obind] in E. apply IH in E. rewrite app_length in E. lia.
  Qed.
  Lemma roundsi_ok : forall fuel rules prev start s g, rounds fuel rules prev start s = Some g -> Forall (fun x => x < start) s ->
    start < 2 ^ 34 -> N.of_nat (length (s_rules g)) < 2 ^ 34 -> roundsi I fuel rules prev start s = Some g.
  Proof.
    induction fuel as [ | f IH]; intros rules prev start s g E HF HS HL.
    - destruct s as [ | x [ | y s]]; exact E.
    - destruct s as [ | x [ | y s]]; try exact E. cbn [rounds roundsi] in *.
      destruct (split _ _ _) as [b0 | ]; [ | discriminate]. cbn [obind] in *. destruct (adjust_blocks b0) as [bs | ]; [ | discriminate]. cbn [obind] in *.
      destruct (layer _ _ _ _ _) as [[l keys] | ] eqn:EL; [ | discriminate]. cbn [obind] in *.
      pose proof (rounds_len _ _ _ _ _ _ E) as RL. rewrite app_length, map_length in RL.
      destruct (layeri_ok start (bits_for (N.of_nat (length (x :: y :: s)) - 1)) bs (gr_new I start) [] (x :: y :: s) l keys (gr_new_ok start)) as ((g1 & F1 & G1) & FL).
      + intros i a b Hi. destruct i; discriminate.
      + exact HF.
      + exact EL.
      + change (2 ^ 56) with (2 ^ 34 * 2 ^ 22). lia.
      + rewrite F1. cbn [obind]. rewrite (store_ok rules start prev g1 keys G1). cbn [obind]. destruct G1 as [GC _].
        replace (g_counter g1 - (start + 1)) with (N.of_nat (length keys)) by lia.
        apply IH; [exact E | exact FL | lia | exact HL].
  Qed.
  Theorem generate_ipd_ok text : bytes_ok text -> N.of_nat (length text) < 2 ^ 32 ->
    generate_grammar_ipd I text = generate_grammar text.
  Proof.
    intros Hb Ht. destruct (grammar_ok text Hb Ht) as (g & E & _ & HL & _). rewrite E. unfold generate_grammar in E. unfold generate_grammar_ipd.
    apply roundsi_ok; [exact E | exact Hb | reflexivity | lia].
  Qed.
End GRP.
