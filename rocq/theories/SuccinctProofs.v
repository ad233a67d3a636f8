(** The coding "succinct" gives the right-hand sides back. *)
From Coq Require Import Sorted Permutation.
From Verif Require Import Base BitIO BitIOProofs IntCodes IntCodesProofs Esp EspProofs SlpSort SlpSortProofs SlpCoderProofs DCodings DCodingsProofs Succinct SubseqSpec.

(** ** sorted_indices *)
Lemma si_insert_perm key i l : Permutation (si_insert key i l) (i :: l).
Proof.
  induction l as [|j l IH]; cbn [si_insert]; [auto|]. destruct (key j <=? key i)%N; [|auto].
  etransitivity; [apply perm_skip; exact IH|]. apply perm_swap.
Qed.
Lemma asc_le a b l : (a <= b)%N -> asc b l -> asc a l.
Proof. destruct l; cbn [asc]; intuition lia. Qed.
Lemma si_insert_asc key i l : forall a, (a <= key i)%N -> asc a (map key l) -> asc a (map key (si_insert key i l)).
Proof.
  induction l as [|j l IH]; intros a Ha H; cbn [si_insert map asc] in *; [auto|].
  destruct H as [H1 H2]. destruct (N.leb_spec (key j) (key i)); cbn [map asc].
  - split; auto.
  - split; auto. split; [lia|auto].
Qed.
Lemma sorted_indices_ok v : Permutation (sorted_indices v) (seq 0 (length v)) /\ asc 0 (map (fun j => nth j v 0%N) (sorted_indices v)).
Proof.
  unfold sorted_indices. set (key := fun j => nth j v 0%N). generalize (seq 0 (length v)) as s.
  assert (G : forall s l, asc 0 (map key l) -> Permutation (fold_left (fun l i => si_insert key i l) s l) (s ++ l) /\
                                              asc 0 (map key (fold_left (fun l i => si_insert key i l) s l))).
  { induction s as [|i s IH]; intros l H; cbn [fold_left app]; [auto|].
    destruct (IH (si_insert key i l)) as [P1 P2]; [apply si_insert_asc; auto; lia|]. split; [|auto].
    rewrite P1. rewrite si_insert_perm. symmetry. apply Permutation_middle. }
  intros s. destruct (G s [] I) as [P1 P2]. rewrite app_nil_r in P1. auto.
Qed.
Lemma sorted_indices_perm v : is_perm (sorted_indices v) /\ length (sorted_indices v) = length v.
Proof.
  destruct (sorted_indices_ok v) as [P _]. assert (L : length (sorted_indices v) = length v) by (rewrite (Permutation_length P); apply seq_length).
  split; [|auto]. split; [eapply Permutation_NoDup; [symmetry; exact P|apply seq_NoDup]|]. intros x. rewrite L. split; intros H.
  - apply (Permutation_in _ P) in H. apply in_seq in H. lia.
  - apply (Permutation_in _ (Permutation_sym P)). apply in_seq. lia.
Qed.

(** ** the inverse of a permutation *)
Fixpoint pos (x : nat) (l : list nat) : nat := match l with [] => 0 | y :: l => if x =? y then 0 else S (pos x l) end.
Lemma pos_ok x l : In x l -> pos x l < length l /\ nth (pos x l) l 0 = x.
Proof.
  induction l as [|y l IH]; intros H; [contradiction|]. cbn [pos length nth]. destruct (Nat.eqb_spec x y) as [->|Hn]; [split; [lia|auto]|].
  destruct H as [H|H]; [congruence|]. destruct (IH H). split; [lia|auto].
Qed.
Lemma pos_nth l : NoDup l -> forall i, i < length l -> pos (nth i l 0) l = i.
Proof.
  intros Hn i Hi. destruct (pos_ok (nth i l 0) l) as [H1 H2]; [apply nth_In; auto|].
  apply (proj1 (NoDup_nth l 0) Hn); auto.
Qed.

(** ** dsigma *)
Lemma dsigma_ok sis dpi : is_perm sis -> length dpi = length sis ->
  length (dsigma sis dpi) = length sis /\ forall j, j < length sis -> nth j (dsigma sis dpi) 0 = nth (pos j sis) dpi 0.
Proof.
  intros [Hn Hp] Hl. unfold dsigma.
  assert (G : forall xs d, NoDup (map fst xs) -> (forall x, In x (map fst xs) -> x < length d) ->
    let r := fold_left (fun d x => upd d (fst x) (snd x)) xs d in
    length r = length d /\ (forall x, In x xs -> nth (fst x) r 0 = snd x) /\ (forall j, ~ In j (map fst xs) -> nth j r 0 = nth j d 0)).
  { induction xs as [|[a c] xs IH]; intros d Hnd Hin; cbn [fold_left map fst snd] in *; [cbn; repeat split; auto; contradiction|].
    inversion Hnd; subst. destruct (IH (upd d a c)) as (H3 & H4 & H5); auto.
    - intros x Hx. rewrite upd_length. apply Hin. right. auto.
    - rewrite upd_length in H3. repeat split; auto.
      + intros x [<-|Hx]; [|auto]. cbn [fst snd]. rewrite H5 by auto. apply nth_upd_eq. apply Hin. left. auto.
      + intros j Hj. rewrite H5 by (intros Hx; apply Hj; right; auto). apply nth_upd_ne. intros ->. apply Hj. left. auto. }
  assert (Em : map fst (combine sis dpi) = sis).
  { clear - Hl. revert dpi Hl. induction sis as [|x s IH]; intros [|y d] Hl; cbn in *; try lia; auto. f_equal. apply IH. lia. }
  destruct (G (combine sis dpi) (repeat 0 (length sis))) as (G1 & G2 & _).
  - rewrite Em. auto.
  - rewrite Em, repeat_length. intros x. apply Hp.
  - rewrite repeat_length in G1. split; [auto|]. intros j Hj. destruct (pos_ok j sis) as [P1 P2]; [apply Hp; auto|].
    specialize (G2 (j, nth (pos j sis) dpi 0)). apply G2.
    rewrite <- P2 at 1. rewrite <- (combine_nth sis dpi (pos j sis) 0 0) by auto.
    apply nth_In. rewrite combine_length. lia.
Qed.

(** ** circular lists *)
Fixpoint path (ll : list nat) (q : list nat) (z : nat) : Prop :=
  match q with [] => True | x :: t => nth_error ll x = Some (hd z t) /\ path ll t z end.
Lemma hd_app {A} (z : A) a b : hd z (a ++ b) = hd (hd z b) a.
Proof. destruct a; reflexivity. Qed.
Lemma path_app ll a : forall b z, path ll (a ++ b) z <-> path ll a (hd z b) /\ path ll b z.
Proof. induction a as [|x a IH]; intros b z; cbn [app path]; [tauto|]. rewrite IH, hd_app. tauto. Qed.
Lemma path_upd ll q x v : forall z, ~ In x q -> path (upd ll x v) q z <-> path ll q z.
Proof.
  induction q as [|y q IH]; intros z Hn; cbn [path] in *; [tauto|]. rewrite IH by (cbn in Hn; tauto). rewrite nth_error_upd_ne by (cbn in Hn; intuition). tauto.
Qed.

Definition members (dpi : list nat) (l k : nat) : list nat := filter (fun i => nth i dpi 0 =? l) (seq 0 k).
Definition queue (dpi : list nat) (b : list bool) (l k : nat) : list nat :=
  if nth l b false then members dpi l k else rev (members dpi l k).
Lemma members_in dpi l k x : In x (members dpi l k) <-> x < k /\ nth x dpi 0 = l.
Proof. unfold members. rewrite filter_In, in_seq, Nat.eqb_eq. intuition lia. Qed.
Lemma queue_in dpi b l k x : In x (queue dpi b l k) <-> x < k /\ nth x dpi 0 = l.
Proof. unfold queue. destruct (nth l b false); [|rewrite <- in_rev]; apply members_in. Qed.
Lemma members_S dpi l k : members dpi l (S k) = members dpi l k ++ (if nth k dpi 0 =? l then [k] else []).
Proof. unfold members. rewrite seq_S, filter_app. cbn [filter plus]. reflexivity. Qed.
Lemma queue_S_ne dpi b l k : nth k dpi 0 <> l -> queue dpi b l (S k) = queue dpi b l k.
Proof. intros H. unfold queue. rewrite members_S. destruct (Nat.eqb_spec (nth k dpi 0) l); [contradiction|]. rewrite app_nil_r. reflexivity. Qed.
Lemma queue_S_eq dpi b k : let l := nth k dpi 0 in queue dpi b l (S k) = if nth l b false then queue dpi b l k ++ [k] else k :: queue dpi b l k.
Proof. cbn zeta. unfold queue. rewrite members_S, Nat.eqb_refl. destruct (nth _ b false); [reflexivity|]. rewrite rev_app_distr. reflexivity. Qed.
Lemma queue_nodup dpi b l k : NoDup (queue dpi b l k).
Proof.
  unfold queue, members. destruct (nth l b false); [|apply NoDup_rev]; apply NoDup_filter, seq_NoDup.
Qed.

Definition link_inv (dpi : list nat) (b : list bool) (k : nat) (ll : list nat) (fr : list (option nat)) : Prop :=
  length ll = length dpi /\ length fr = length b /\
  forall l, l < length b -> let q := queue dpi b l k in
    nth_error fr l = Some (match q with [] => None | _ => Some (last q 0) end) /\ path ll q (hd 0 q).
Lemma link_all_ok dpi b : (forall i, i < length dpi -> nth i dpi 0 < length b) ->
  forall m k ll fr, k + m = length dpi -> link_inv dpi b k ll fr ->
  exists ll' fr', link_all k (skipn k dpi) b ll fr = Some (ll', fr') /\ link_inv dpi b (length dpi) ll' fr'.
Proof.
  intros Hb. induction m as [|m IH]; intros k ll fr Hk Hinv.
  - replace k with (length dpi) in * by lia. rewrite skipn_all. cbn [link_all]. eauto.
  - destruct Hinv as (L1 & L2 & Hinv). assert (Hlt : k < length dpi) by lia.
    rewrite (skipn_cons_nth dpi k 0) by auto. cbn [link_all].
    set (l := nth k dpi 0) in *. pose proof (Hb k Hlt) as Hl. fold l in Hl.
    destruct (Hinv l Hl) as [F1 F2]. rewrite F1. cbn [obind].
    destruct (queue dpi b l k) as [|q0 qt] eqn:Eq.
    + apply IH; [lia|]. split; [rewrite upd_length; auto|]. split; [rewrite upd_length; auto|]. intros l' Hl'. cbn zeta.
      destruct (Nat.eq_dec l' l) as [->|Hne].
      * unfold l. rewrite queue_S_eq. fold l. rewrite Eq. cbn [app]. assert (E : (if nth l b false then [k] else [k]) = [k]) by (destruct (nth l b false); auto).
        rewrite E. rewrite nth_error_upd_eq by lia. split; [reflexivity|]. cbn [path hd]. rewrite nth_error_upd_eq by lia. auto.
      * rewrite queue_S_ne by (fold l; auto). destruct (Hinv l' Hl') as [G1 G2]. rewrite nth_error_upd_ne by auto. split; [auto|].
        apply path_upd; [|auto]. rewrite queue_in. lia.
    + set (q := q0 :: qt) in *. assert (Hq : q <> []) by discriminate.
      destruct (exists_last Hq) as (qs & r & Er). rewrite Er in F2. pose proof F2 as F3. apply path_app in F3. cbn [hd path] in F3. destruct F3 as (F3 & F4 & _).
      assert (Elast : last q 0 = r) by (rewrite Er; apply last_last).
      assert (Hhd : hd 0 q = q0) by reflexivity. rewrite <- Er in F4. rewrite Hhd in F4.
      change (match q with [] => None | _ => Some (last q 0) end) with (Some (last q 0)). rewrite Elast. cbn [obind]. rewrite F4. cbn [obind].
      assert (Hbl : nth_error b l = Some (nth l b false)) by (apply nth_error_nth'; auto). rewrite Hbl. cbn [obind].
      assert (Hr : r < k /\ nth r dpi 0 = l). { apply (queue_in dpi b l k). rewrite Eq, Er. apply in_or_app. right. left. auto. }
      assert (Hkq : ~ In k q) by (rewrite <- Eq, queue_in; lia).
      assert (Hrs : ~ In r qs). { pose proof (queue_nodup dpi b l k) as Hnd. rewrite Eq, Er in Hnd. apply NoDup_remove_2 in Hnd. rewrite app_nil_r in Hnd. auto. }
      assert (Hks : ~ In k qs) by (intros H; apply Hkq; rewrite Er; apply in_or_app; auto).
      assert (Hp : path (upd (upd ll r k) k q0) q k).
      { apply path_upd; [auto|]. rewrite Er. apply path_app. cbn [hd path]. split; [apply path_upd; auto|]. rewrite nth_error_upd_eq by lia. auto. }
      assert (Hkk : nth_error (upd (upd ll r k) k q0) k = Some q0) by (apply nth_error_upd_eq; rewrite upd_length; lia).
      apply IH; [lia|]. split; [rewrite !upd_length; auto|]. split; [destruct (nth l b false); rewrite ?upd_length; auto|]. intros l' Hl'. cbn zeta.
      destruct (Nat.eq_dec l' l) as [->|Hne].
      * pose proof (queue_S_eq dpi b k) as QS. cbn zeta in QS. fold l in QS. rewrite QS, Eq. destruct (nth l b false) eqn:El.
        -- rewrite nth_error_upd_eq by lia. rewrite last_last. split; [destruct (q ++ [k]) eqn:E; [destruct q; discriminate|reflexivity]|].
           apply path_app. split; [exact Hp|]. cbn [path hd]. split; [|auto].
           rewrite Hkk. reflexivity.
        -- rewrite F1. cbn [hd]. split; [|split; [rewrite Hkk; reflexivity|exact Hp]].
           change (last (k :: q) 0) with (last q 0). reflexivity.
      * rewrite queue_S_ne by (fold l; auto). destruct (Hinv l' Hl') as [G1 G2]. split.
        -- destruct (nth l b false); rewrite ?nth_error_upd_ne by auto; auto.
        -- rewrite !path_upd; [auto|rewrite queue_in; lia|rewrite queue_in; lia].
Qed.

(** ** the fronts and the output *)
Lemma advance_fronts_ok ll : forall fr (q : nat -> list nat) o, length fr = o ->
  (forall l, l < o -> q l <> [] /\ nth_error fr l = Some (Some (last (q l) 0)) /\ path ll (q l) (hd 0 (q l))) ->
  exists fr', advance_fronts ll fr = Some fr' /\ length fr' = o /\ forall l, l < o -> nth_error fr' l = Some (hd 0 (q l)).
Proof.
  induction fr as [|f fr IH]; intros q o Ho H; cbn [length] in Ho; subst o.
  - exists []. repeat split. intros l Hl. lia.
  - destruct (H 0) as (H1 & H2 & H3); [lia|]. cbn [nth_error] in H2. apply Some_inj in H2. subst f.
    destruct (IH (fun l => q (S l)) (length fr) eq_refl) as (fr' & E & L & G).
    { intros l Hl. apply (H (S l)). lia. }
    destruct (exists_last H1) as (qs & r & Er). rewrite Er in H3. apply path_app in H3. cbn [path hd] in H3. destruct H3 as (_ & H3 & _). rewrite <- Er in H3.
    assert (El : last (q 0) 0 = r) by (rewrite Er; apply last_last). cbn [advance_fronts obind]. rewrite El, H3. cbn [obind]. rewrite E. cbn [obind].
    exists (hd 0 (q 0) :: fr'). repeat split; [cbn; lia|]. intros [|l] Hl; [reflexivity|]. cbn [nth_error]. apply G. lia.
Qed.

Lemma firstn_S_nth {A} (l : list A) k d : k < length l -> firstn (S k) l = firstn k l ++ [nth k l d].
Proof. revert k. induction l as [|x l IH]; intros [|k] H; cbn in *; try lia; auto. f_equal. apply IH. lia. Qed.
Lemma emit_ok ll dsi bde (inv : nat -> nat) z o : (forall j, j < length dsi -> nth j dsi 0 < o /\ inv j < length bde) ->
  forall k fr acc, k <= length dsi -> length fr = o ->
  (forall l, l < o -> let r := map inv (rev (members dsi l k)) in path ll r (z l) /\ nth_error fr l = Some (hd (z l) r)) ->
  emit (rev (firstn k dsi)) ll fr bde acc = Some (map (fun j => nth (inv j) bde 0%N) (seq 0 k) ++ acc).
Proof.
  intros Hd. induction k as [|k IH]; intros fr acc Hk Ho Hinv; [reflexivity|].
  rewrite (firstn_S_nth dsi k 0) by lia. rewrite rev_app_distr. cbn [rev app emit].
  destruct (Hd k) as [D1 D2]; [lia|]. set (l := nth k dsi 0) in *. destruct (Hinv l D1) as [P1 P2]. cbn zeta in P1, P2.
  assert (Em : map inv (rev (members dsi l (S k))) = inv k :: map inv (rev (members dsi l k))).
  { rewrite members_S. fold l. rewrite Nat.eqb_refl, rev_app_distr. reflexivity. }
  rewrite Em in P1, P2. cbn [path hd] in P1, P2. destruct P1 as [P1 P1']. rewrite P2. cbn [obind]. rewrite P1. cbn [obind].
  rewrite (nth_error_nth' bde 0%N D2). cbn [obind]. rewrite seq_S, map_app. cbn [map plus]. rewrite <- app_assoc. cbn [app].
  apply IH; [lia|rewrite upd_length; auto|]. intros l' Hl'. cbn zeta. destruct (Nat.eq_dec l' l) as [->|Hne].
  - split; [auto|]. apply nth_error_upd_eq. lia.
  - destruct (Hinv l' Hl') as [Q1 Q2]. cbn zeta in Q1, Q2.
    assert (E' : members dsi l' (S k) = members dsi l' k).
    { rewrite members_S. fold l. destruct (Nat.eqb_spec l l'); [congruence|]. apply app_nil_r. }
    rewrite E' in Q1, Q2. split; [auto|]. rewrite nth_error_upd_ne by auto. auto.
Qed.

Lemma sorted_lt_eq : forall a b : list nat, StronglySorted lt a -> StronglySorted lt b -> (forall x, In x a <-> In x b) -> a = b.
Proof.
  induction a as [|x a IH]; intros [|y b] Ha Hb H.
  - reflexivity.
  - exfalso. apply (H y). left. auto.
  - exfalso. apply (H x). left. auto.
  - inversion Ha as [|? ? Ha1 Ha2]; subst. inversion Hb as [|? ? Hb1 Hb2]; subst. rewrite Forall_forall in Ha2, Hb2.
    assert (E : x = y).
    { destruct (proj1 (H x) (or_introl eq_refl)) as [E|E]; [auto|]. destruct (proj2 (H y) (or_introl eq_refl)) as [E'|E']; [auto|].
      specialize (Ha2 y E'). specialize (Hb2 x E). lia. }
    subst y. f_equal. apply IH; auto. intros z. split; intros Hz.
    + destruct (proj1 (H z) (or_intror Hz)) as [E|E]; [|auto]. subst z. specialize (Ha2 x Hz). lia.
    + destruct (proj2 (H z) (or_intror Hz)) as [E|E]; [|auto]. subst z. specialize (Hb2 x Hz). lia.
Qed.
Lemma seq_sorted n : forall a, StronglySorted lt (seq a n).
Proof. induction n as [|n IH]; intros a; cbn [seq]; constructor; auto. apply Forall_forall. intros x Hx. apply in_seq in Hx. lia. Qed.
Lemma filter_sorted (f : nat -> bool) l : StronglySorted lt l -> StronglySorted lt (filter f l).
Proof.
  induction 1 as [|x l H IH HF]; cbn [filter]; [constructor|]. destruct (f x); [|auto]. constructor; auto.
  apply Forall_forall. intros y Hy. apply filter_In in Hy. rewrite Forall_forall in HF. apply HF. tauto.
Qed.
Lemma map_sorted (f : nat -> nat) l : (forall x y, In x l -> In y l -> x < y -> f x < f y) -> StronglySorted lt l -> StronglySorted lt (map f l).
Proof.
  intros Hf H. induction H as [|x l H IH HF]; cbn [map]; [constructor|]. constructor.
  - apply IH. intros; apply Hf; auto; right; auto.
  - apply Forall_map. apply Forall_forall. intros y Hy. rewrite Forall_forall in HF. apply Hf; [left; auto|right; auto|auto].
Qed.
Lemma map_sorted_rev (f : nat -> nat) l : (forall x y, In x l -> In y l -> x < y -> f y < f x) -> StronglySorted lt l -> StronglySorted lt (rev (map f l)).
Proof.
  intros Hf H. induction H as [|x l H IH HF]; cbn [map rev]; [constructor|].
  assert (G : forall a z, StronglySorted lt a -> Forall (fun y => y < z) a -> StronglySorted lt (a ++ [z])).
  { clear. induction a as [|y a IH]; intros z Ha HF; cbn [app]; [repeat constructor|]. inversion Ha; subst. inversion HF; subst. constructor; auto.
    apply Forall_app. auto. }
  apply G.
  - apply IH. intros; apply Hf; auto; right; auto.
  - apply Forall_rev, Forall_map. apply Forall_forall. intros y Hy. rewrite Forall_forall in HF. apply Hf; [left; auto|right; auto|auto].
Qed.

(** the queue of list l, by positions in the original sequence *)
Lemma queue_positions sis dpi b l : is_perm sis -> subseq_ok sis dpi b -> l < length b ->
  queue dpi b l (length sis) = map (fun j => pos j sis) (rev (members (dsigma sis dpi) l (length sis))).
Proof.
  intros Hp (L & H1 & H2 & H3) Hl. destruct (dsigma_ok sis dpi Hp L) as [DL DN]. pose proof Hp as [Hnd Hin]. set (n := length sis) in *.
  assert (E : map (fun i => nth i sis 0) (queue dpi b l n) = rev (members (dsigma sis dpi) l n)).
  { rewrite <- (rev_involutive (map _ _)). f_equal. apply sorted_lt_eq.
    - assert (Sm : StronglySorted lt (members dpi l n)) by (apply filter_sorted, seq_sorted).
      assert (Hm : forall x y, In x (members dpi l n) -> In y (members dpi l n) -> x < y ->
                   if nth l b false then nth y sis 0 < nth x sis 0 else nth x sis 0 < nth y sis 0).
      { intros x y Hx Hy Hxy. apply members_in in Hx, Hy. destruct Hx as [X1 X2], Hy as [Y1 Y2].
        specialize (H3 x y). rewrite X2, Y2 in H3. apply H3; [lia|auto]. }
      unfold queue. destruct (nth l b false).
      + apply map_sorted_rev; auto.
      + rewrite map_rev, rev_involutive. apply map_sorted; auto.
    - apply filter_sorted, seq_sorted.
    - intros x. rewrite <- in_rev, in_map_iff, members_in. split.
      + intros (i & <- & Hi). apply queue_in in Hi. destruct Hi as [Hi1 Hi2]. assert (Hx : nth i sis 0 < n) by (apply Hin, nth_In; auto).
        split; [auto|]. rewrite DN by auto. rewrite pos_nth; auto.
      + intros [Hx1 Hx2]. rewrite DN in Hx2 by auto. destruct (pos_ok x sis) as [P1 P2]; [apply Hin; auto|]. exists (pos x sis). split; [auto|].
        apply queue_in. auto. }
  rewrite <- E, map_map. symmetry. rewrite <- map_id. apply map_ext_in. intros i Hi. apply queue_in in Hi. apply pos_nth; tauto.
Qed.

Theorem recover_ok sis dpi b (rhs : list N) : is_perm sis -> subseq_ok sis dpi b -> length rhs = length sis ->
  recover dpi (dsigma sis dpi) b (map (fun i => nth i rhs 0%N) sis) = Some rhs.
Proof.
  intros Hp Hs Hr. pose proof Hs as (L & H1 & H2 & H3). pose proof Hp as [Hnd Hin]. destruct (dsigma_ok sis dpi Hp L) as [DL DN]. unfold recover.
  destruct (link_all_ok dpi b) with (m := length dpi) (k := 0) (ll := repeat 0 (length dpi)) (fr := repeat (@None nat) (length b)) as (ll & fr & E & Hinv); auto.
  - intros i Hi. apply H1. lia.
  - split; [apply repeat_length|]. split; [apply repeat_length|]. intros l Hl. cbn zeta.
    assert (Eq : queue dpi b l 0 = []) by (unfold queue, members; cbn; destruct (nth l b false); auto). rewrite Eq. split; [|exact I].
    rewrite (nth_error_nth' _ None) by (rewrite repeat_length; auto). rewrite nth_repeat. reflexivity.
  - cbn [skipn] in E. rewrite E. cbn [obind]. destruct Hinv as (L1 & L2 & Hinv). rewrite L in Hinv.
    assert (Hne : forall l, l < length b -> queue dpi b l (length sis) <> []).
    { intros l Hl E0. destruct (H2 l Hl) as (i & Hi & Hi'). assert (Hx : In i (queue dpi b l (length sis))) by (apply queue_in; auto). rewrite E0 in Hx. contradiction. }
    destruct (advance_fronts_ok ll fr (fun l => queue dpi b l (length sis)) (length b) L2) as (fr' & E' & L' & G).
    { intros l Hl. specialize (Hne l Hl). split; [auto|]. destruct (Hinv l Hl) as [I1 I2]. split; [|auto]. rewrite I1.
      destruct (queue dpi b l (length sis)); [congruence|reflexivity]. }
    rewrite E'. cbn [obind]. rewrite <- (firstn_all (dsigma sis dpi)).
    rewrite (emit_ok ll (dsigma sis dpi) _ (fun j => pos j sis) (fun l => hd 0 (queue dpi b l (length sis))) (length b)); auto.
    + rewrite app_nil_r, DL. f_equal. rewrite <- Hr. clear - Hin Hr.
      assert (Hg : forall j, In j (seq 0 (length rhs)) -> nth (pos j sis) (map (fun i => nth i rhs 0%N) sis) 0%N = nth j rhs 0%N).
      { intros j Hj. apply in_seq in Hj. destruct (pos_ok j sis) as [P1 P2]; [apply Hin; lia|].
        rewrite (nth_indep _ 0%N ((fun i => nth i rhs 0%N) 0)) by (rewrite map_length; auto). rewrite (map_nth (fun i => nth i rhs 0%N)). rewrite P2. reflexivity. }
      rewrite (map_ext_in _ _ _ Hg). clear. induction rhs as [|x rhs IH]; [reflexivity|]. cbn [length seq map nth]. f_equal.
      rewrite <- seq_shift, map_map. exact IH.
    + intros j Hj. rewrite DL in Hj. rewrite DN by auto. destruct (pos_ok j sis) as [P1 P2]; [apply Hin; auto|]. split; [apply H1; auto|]. rewrite map_length. auto.
    + intros l Hl. cbn zeta. rewrite DL, <- (queue_positions sis dpi b l) by auto. destruct (Hinv l Hl) as [I1 I2]. split; [auto|]. rewrite G by auto.
      specialize (Hne l Hl). destruct (queue dpi b l (length sis)); [congruence|reflexivity].
Qed.

(** ** the coder *)
Lemma read_bools_ok : forall b s rest, bisR s (b ++ rest) -> exists s', read_bools (length b) s = (b, s') /\ bisR s' rest.
Proof.
  induction b as [|x b IH]; intros s rest HR; [exists s; auto|]. cbn [app] in HR. destruct (rbit_bis _ _ _ HR) as (s1 & E1 & HR1).
  cbn [length read_bools]. rewrite E1. destruct (IH s1 rest HR1) as (s2 & E2 & HR2). rewrite E2. eauto.
Qed.
(** A strategy that always gives a partition into monotone subsequences *)
Definition sub_ok (sub : list nat -> option (list nat * list bool)) : Prop :=
  forall sis, is_perm sis -> sis <> [] -> (N.of_nat (length sis) < 2 ^ 64 - 1)%N -> exists dpi b, sub sis = Some (dpi, b) /\ subseq_ok sis dpi b.
(** [dc] gives back every list of numbers up to mx < K (mx: the largest allowed value) *)
Definition dx_ok (K : N) (dc : dcoding) : Prop :=
  forall l mx, l <> [] -> (N.of_nat (length l) < 2 ^ 35 -> mx < K -> Forall (fun x => x <= mx) l -> dc_rt dc l (bits_forn mx) mx)%N.
(** [dc] gives back every list of at most K right-hand sides *)
Definition dcoding_okK (K : N) (dc : dcoding) : Prop :=
  forall rhs mx, rhs <> [] -> (N.of_nat (length rhs) <= K -> N.of_nat (length rhs) + 255 = mx -> mx < 2 ^ 33 -> Forall (fun x => x <= mx) rhs ->
    dc_rt dc rhs (bits_forn mx) mx)%N.

Lemma subseq_count sis dpi b : subseq_ok sis dpi b -> length b <= length sis /\ (sis <> [] -> 1 <= length b).
Proof.
  intros (L & H1 & H2 & _). split.
  - assert (Hi : incl (seq 0 (length b)) dpi).
    { intros l Hl. apply in_seq in Hl. destruct (H2 l) as (i & Hi & <-); [lia|]. apply nth_In. lia. }
    apply NoDup_incl_length in Hi; [|apply seq_NoDup]. rewrite seq_length in Hi. lia.
  - intros Hn. destruct sis as [|x sis]; [congruence|]. specialize (H1 0). cbn [length] in H1. lia.
Qed.
Lemma map_to_of l : map N.to_nat (map N.of_nat l) = l.
Proof. rewrite map_map. rewrite (map_ext _ (fun x => x)) by apply Nat2N.id. apply map_id. Qed.

Theorem d_succinct_ok K sub dx : sub_ok sub -> dx_ok K dx -> (K <= 2 ^ 33)%N -> dcoding_okK K (d_succinct sub dx).
Proof.
  intros Hsub Hdx HK33 rhs mx Hne HK Hmx Hmx33 HF. destruct (sorted_indices_perm rhs) as [Hp Hlen]. destruct (sorted_indices_ok rhs) as [Pp Pa].
  set (sis := sorted_indices rhs) in *.
  assert (Hsn : sis <> []) by (destruct sis; [destruct rhs; [congruence|discriminate]|discriminate]).
  destruct (Hsub sis Hp Hsn ltac:(lia)) as (dpi & b & Es & Hok). pose proof Hok as (Ldpi & B1 & B2 & _). destruct (subseq_count sis dpi b Hok) as [C1 C2]. specialize (C2 Hsn).
  destruct (dsigma_ok sis dpi Hp Ldpi) as [DL DN].
  assert (Hcb : exists cb, write_cint (N.of_nat (length b)) 7 = Some cb).
  { destruct (rcint_bis (N.of_nat (length b)) 7 [] (bis_open [])) as (l & E & _); [lia|lia|eauto]. }
  destruct Hcb as (cb & Ecb).
  set (dl := map N.of_nat (dpi ++ dsigma sis dpi)).
  assert (Ldl : length dl = 2 * length rhs) by (unfold dl; rewrite map_length, app_length; lia).
  set (m := (N.of_nat (length b) - 1)%N).
  destruct (Hdx dl m) as (d & Ed & Hd).
  - intros E0. rewrite E0 in Ldl. cbn in Ldl. destruct rhs; [congruence|cbn in Ldl; lia].
  - rewrite Ldl. lia.
  - unfold m. lia.
  - unfold dl. apply Forall_map, Forall_forall. intros x Hx. unfold m.
    assert (x < length b); [|lia]. apply in_app_or in Hx. destruct Hx as [Hx|Hx]; apply (In_nth _ _ 0) in Hx; destruct Hx as (i & Hi & <-).
    + apply B1. lia.
    + rewrite DL in Hi. rewrite DN by auto. apply B1. destruct Hp as [_ Hin]. apply pos_ok. apply Hin. auto.
  - unfold dc_rt. cbn [dc_enc dc_dec d_succinct]. fold sis. rewrite Es. cbn [obind]. rewrite Ecb. cbn [obind]. fold m dl. rewrite Ed. cbn [obind].
    eexists. split; [reflexivity|]. intros s fuel HR Hf. rewrite !app_length in Hf. set (B := map (fun i => nth i rhs 0%N) sis) in *.
    assert (LB : length B = length rhs) by (unfold B; rewrite map_length; auto).
    assert (FB : Forall (fun x => x < 2 ^ 64)%N B).
    { unfold B. apply Forall_map, Forall_forall. intros i Hi. apply Hp in Hi. rewrite Forall_forall in HF. specialize (HF (nth i rhs 0%N)).
      assert (In (nth i rhs 0%N) rhs) by (apply nth_In; lia). specialize (HF H). lia. }
    destruct (read_up_ok B 0 s (cb ++ b ++ d) fuel Pa FB) as (s1 & E1 & HR1); [lia|exact HR|lia|]. rewrite LB in E1. rewrite E1. cbn [obind].
    destruct (rcint_bis (N.of_nat (length b)) 7 (b ++ d) s1) as (cb' & Ecb' & Hcb); [lia|lia|]. rewrite Ecb in Ecb'. apply Some_inj in Ecb'. subst cb'.
    destruct (Hcb fuel) as (s2 & E2 & HR2); [lia|auto|]. rewrite E2. cbn [obind]. rewrite Nat2N.id.
    destruct (read_bools_ok b s2 d HR2) as (s3 & E3 & HR3). rewrite E3. fold m.
    destruct (Hd s3 fuel HR3) as (s4 & E4); [lia|]. rewrite Ldl in E4. rewrite E4. cbn [obind].
    unfold dl. rewrite firstn_map, skipn_map.
    assert (Ef : firstn (length rhs) (dpi ++ dsigma sis dpi) = dpi) by (rewrite firstn_app, firstn_all2 by lia; replace (length rhs - length dpi) with 0 by lia; apply app_nil_r).
    assert (Ek : skipn (length rhs) (dpi ++ dsigma sis dpi) = dsigma sis dpi) by (rewrite skipn_app, skipn_all2 by lia; replace (length rhs - length dpi) with 0 by lia; reflexivity).
    rewrite Ef, Ek, !map_to_of. unfold B. rewrite recover_ok; auto. cbn [obind]. eauto.
Qed.

Lemma d_plain_dx : dx_ok (2 ^ 33) d_plain.
Proof.
  intros l mx _ _ Hmx HF. pose proof (bits_forn_33 mx Hmx). exists (plain_bits (bits_forn mx) l). split; [reflexivity|].
  intros s fuel HR _. rewrite <- (app_nil_r (plain_bits _ _)) in HR. destruct (read_plain_ok l (bits_forn mx) s []) as (s' & E & _); auto; [lia| |].
  - eapply Forall_impl; [|exact HF]. cbn. intros a Ha. apply bits_forn_lt. auto.
  - exists s'. cbn [dc_dec d_plain]. rewrite E. reflexivity.
Qed.
