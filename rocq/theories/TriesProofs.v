(** The Binary, BinarySorted and Ternary tries implement the dictionary interface. *)
From Coq Require Import Permutation.
From Verif Require Import Base BitIO IntCodes Coders LZ LZProofs Tries.
Local Open Scope N_scope.

(** ** Arrays *)
Lemma aget_lt l i v : aget l i = Some v -> i < asize l.
Proof. unfold aget, asize. intros H. assert (N.to_nat i < length l)%nat by (apply nth_error_Some; congruence). lia. Qed.
Lemma aget_ex l i : i < asize l -> exists v, aget l i = Some v.
Proof. unfold aget, asize. intros H. destruct (nth_error l (N.to_nat i)) eqn:E; eauto. apply nth_error_None in E. lia. Qed.
Lemma aget_app l x i v : aget l i = Some v -> aget (l ++ [x]) i = Some v.
Proof. intros H. unfold aget. rewrite nth_error_app1; auto. apply aget_lt in H. unfold asize in H. lia. Qed.
Lemma aget_app_lt l x i : i < asize l -> aget (l ++ [x]) i = aget l i.
Proof. intros H. unfold aget. rewrite nth_error_app1; auto. unfold asize in H. lia. Qed.
Lemma aget_new l x : aget (l ++ [x]) (asize l) = Some x.
Proof. unfold aget, asize. rewrite nth_error_app2 by lia. replace (_ - _)%nat with 0%nat by lia. reflexivity. Qed.
Lemma asize_app l x : asize (l ++ [x]) = asize l + 1.
Proof. unfold asize. rewrite app_length; simpl; lia. Qed.
Lemma asize_aset l i v : asize (aset l i v) = asize l.
Proof. unfold asize, aset. rewrite upd_length; auto. Qed.
Lemma aget_aset_eq l i v : i < asize l -> aget (aset l i v) i = Some v.
Proof. intros H. apply nth_error_upd_eq. unfold asize in H; lia. Qed.
Lemma aget_aset_ne l i j v : i <> j -> aget (aset l i v) j = aget l j.
Proof. intros H. apply nth_error_upd_ne. lia. Qed.
Lemma aget_repeat n x i v : aget (repeat x n) i = Some v -> v = x.
Proof. unfold aget. intros H. apply nth_error_In in H. apply repeat_spec in H; auto. Qed.

(** ** The dictionary side *)
Definition is_kid (a : atrie) (p id : N) : Prop :=
  exists k c, id = a_roots a + N.of_nat k /\ nth_error (a_ent a) k = Some (p, c).
Record dict_ok (a : atrie) (lit : list N) : Prop := {
  do_nd : NoDup (a_ent a);
  do_len : asize lit = at_size a;
  do_lit : forall k p c, nth_error (a_ent a) k = Some (p, c) -> aget lit (a_roots a + N.of_nat k) = Some c;
  do_par : forall k p c, nth_error (a_ent a) k = Some (p, c) -> p < at_size a }.

Definition kids (a : atrie) (p : N) (ids : list N) : Prop :=
  NoDup ids /\ forall id, In id ids <-> is_kid a p id.

Lemma is_kid_lt a p id : is_kid a p id -> id < at_size a.
Proof.
  intros (k & c & -> & H). assert (k < length (a_ent a))%nat by (apply nth_error_Some; congruence).
  unfold at_size; lia.
Qed.
Lemma is_kid_ge a p id : is_kid a p id -> a_roots a <= id.
Proof. intros (k & c & -> & H). lia. Qed.
Lemma is_kid_fun a p q id : is_kid a p id -> is_kid a q id -> p = q.
Proof. intros (k & c & -> & H) (k' & c' & E & H'). assert (k = k') by lia. subst. congruence. Qed.

Lemma ent_find_nodup E p c k : NoDup E -> nth_error E k = Some (p, c) -> ent_find E p c = Some k.
Proof.
  revert k; induction E as [|[p' c'] E IH]; intros k Hn H; [destruct k; discriminate|].
  inversion Hn; subst. simpl.
  destruct k as [|k]; simpl in H.
  - apply Some_inj in H. inversion H; subst. rewrite !N.eqb_refl. reflexivity.
  - destruct ((p' =? p) && (c' =? c)) eqn:B.
    + apply andb_prop in B. destruct B. assert (p' = p) by lia. assert (c' = c) by lia. subst.
      exfalso. apply H2. eapply nth_error_In; eauto.
    + rewrite (IH k); auto.
Qed.
Lemma ent_find_none E p c : ent_find E p c = None -> ~ In (p, c) E.
Proof.
  induction E as [|[p' c'] E IH]; simpl; intros H; [tauto|].
  destruct ((p' =? p) && (c' =? c)) eqn:B; [discriminate|].
  destruct (ent_find E p c); [discriminate|]. intros [Hi|Hi]; [|apply IH; auto].
  inversion Hi; subst. rewrite !N.eqb_refl in B. discriminate.
Qed.

Lemma found_spec a lit p id c : dict_ok a lit -> is_kid a p id -> aget lit id = Some c ->
  at_find a p c = (id, false, a).
Proof.
  intros H (k & c' & -> & Hk) Hl. rewrite (do_lit _ _ H _ _ _ Hk) in Hl. apply Some_inj in Hl; subst c'.
  unfold at_find. rewrite (ent_find_nodup _ _ _ _ (do_nd _ _ H) Hk). reflexivity.
Qed.
Lemma notfound_spec a lit p c : dict_ok a lit -> (forall id, is_kid a p id -> aget lit id <> Some c) ->
  at_find a p c = (at_size a, true, mk_atrie (a_roots a) (a_ent a ++ [(p, c)])) /\ ~ In (p, c) (a_ent a).
Proof.
  intros H Hn. unfold at_find. destruct (ent_find (a_ent a) p c) as [k|] eqn:F.
  - exfalso. pose proof (ent_find_some _ _ _ _ F) as Hk.
    apply (Hn (a_roots a + N.of_nat k)). { exists k, c; auto. } eapply do_lit; eauto.
  - split; [reflexivity|]. apply ent_find_none; auto.
Qed.

(** insertion of a fresh pair *)
Definition grow (a : atrie) (p c : N) : atrie := mk_atrie (a_roots a) (a_ent a ++ [(p, c)]).
Lemma at_size_grow a p c : at_size (grow a p c) = at_size a + 1.
Proof. unfold at_size, grow; simpl. rewrite app_length; simpl; lia. Qed.
Lemma nth_snoc {A} (l : list A) x k y : nth_error (l ++ [x]) k = Some y ->
  nth_error l k = Some y \/ (k = length l /\ y = x).
Proof.
  intros H. destruct (Nat.lt_ge_cases k (length l)).
  - rewrite nth_error_app1 in H by auto. auto.
  - rewrite nth_error_app2 in H by auto. destruct (k - length l)%nat eqn:D; simpl in H.
    + right. split; [lia|congruence].
    + destruct n; discriminate.
Qed.
Lemma dict_ok_grow a lit p c : dict_ok a lit -> ~ In (p, c) (a_ent a) -> p < at_size a ->
  dict_ok (grow a p c) (lit ++ [c]).
Proof.
  intros H Hn Hp. constructor; simpl.
  -
    apply (Permutation_NoDup (l := (p, c) :: a_ent a)).
    + apply Permutation_cons_append.
    + constructor; auto. apply (do_nd _ _ H).
  - rewrite asize_app, at_size_grow, (do_len _ _ H). reflexivity.
  - intros k q d Hk. apply nth_snoc in Hk. destruct Hk as [Hk|[-> E]].
    + apply aget_app. eapply do_lit; eauto.
    + inversion E; subst. replace (a_roots a + N.of_nat (length (a_ent a))) with (asize lit).
      * apply aget_new.
      * rewrite (do_len _ _ H). reflexivity.
  - intros k q d Hk. rewrite at_size_grow. apply nth_snoc in Hk. destruct Hk as [Hk|[-> E]].
    + apply (do_par _ _ H) in Hk. lia.
    + inversion E; subst. lia.
Qed.
Lemma is_kid_grow a p c q id : is_kid (grow a p c) q id <-> is_kid a q id \/ (q = p /\ id = at_size a).
Proof.
  split.
  - intros (k & d & -> & Hk). simpl in Hk. apply nth_snoc in Hk. destruct Hk as [Hk|[-> E]].
    + left. exists k, d; auto.
    + right. inversion E; subst. split; auto.
  - intros [(k & d & -> & Hk)|[-> ->]].
    + exists k, d. split; auto. simpl. rewrite nth_error_app1; auto. apply nth_error_Some; congruence.
    + exists (length (a_ent a)), c. split; [reflexivity|]. simpl. rewrite nth_error_app2 by lia.
      rewrite Nat.sub_diag. reflexivity.
Qed.
Lemma kids_grow_other a p c q ids : q <> p -> kids a q ids -> kids (grow a p c) q ids.
Proof. intros Hq [Hn Hi]. split; auto. intros id. rewrite is_kid_grow, Hi. intuition. Qed.
Lemma kids_grow_same a p c ids ids' : kids a p ids ->
  Permutation ids' (at_size a :: ids) -> kids (grow a p c) p ids'.
Proof.
  intros [Hn Hi] HP. split.
  - eapply Permutation_NoDup; [symmetry; exact HP|]. constructor; auto.
    rewrite Hi. intros K. apply is_kid_lt in K. lia.
  - intros id. rewrite is_kid_grow, <- Hi. split.
    + intros K. apply (Permutation_in _ HP) in K. destruct K; [right|left]; auto.
    + intros K. eapply Permutation_in; [symmetry; exact HP|]. destruct K as [K|[_ ->]]; [right|left]; auto.
Qed.
Lemma kids_new a lit : dict_ok a lit -> forall p, at_size a <= p -> kids a p [].
Proof.
  intros H p Hp. split; [constructor|]. intros id; split; [intros []|].
  intros (k & c & -> & Hk). apply (do_par _ _ H) in Hk. lia.
Qed.
Lemma kids_len a p ids : kids a p ids -> (length ids <= N.to_nat (at_size a))%nat.
Proof.
  intros [Hn Hi]. 
  assert (L : (length ids <= length (map N.of_nat (seq 0 (N.to_nat (at_size a)))))%nat).
  { apply NoDup_incl_length; auto. intros id K. apply Hi, is_kid_lt in K.
    apply in_map_iff. exists (N.to_nat id). rewrite in_seq. lia. }
  rewrite map_length, seq_length in L. exact L.
Qed.

(** ** Sibling lists *)
Inductive chain (ns : list N) : N -> list N -> Prop :=
| ch_nil : chain ns undef_id []
| ch_cons : forall x y l, x <> undef_id -> aget ns x = Some y -> chain ns y l -> chain ns x (x :: l).

Lemma chain_app ns x l u : chain ns x l -> chain (ns ++ [u]) x l.
Proof. induction 1; econstructor; eauto using aget_app. Qed.
Lemma chain_set ns x l n v : chain ns x l -> ~ In n l -> chain (aset ns n v) x l.
Proof.
  induction 1; intros Hn; [constructor|]. simpl in Hn. econstructor; eauto.
  rewrite aget_aset_ne; auto.
Qed.
(** insert [new] (pointing to y) after n *)
Lemma chain_insert ns x l n y new : chain ns x l -> In n l -> NoDup l -> aget ns n = Some y ->
  new = asize ns -> new <> undef_id -> 
  exists l1 l2, l = l1 ++ n :: l2 /\ chain (aset (ns ++ [y]) n new) x (l1 ++ n :: new :: l2).
Proof.
  intros H. induction H as [|x z l Hx Hz Hc IH]; intros Hi Hnd Hy Hnew Hne; [destruct Hi|].
  inversion Hnd; subst. destruct Hi as [->|Hi].
  - exists [], l. split; [reflexivity|]. rewrite Hy in Hz. apply Some_inj in Hz; subst z. simpl.
    pose proof (aget_lt _ _ _ Hy) as Hlt.
    econstructor; eauto.
    { apply aget_aset_eq. rewrite asize_app. lia. }
    econstructor; eauto.
    { rewrite aget_aset_ne by lia. apply aget_new. }
    apply chain_set; auto. apply chain_app; auto.
  - destruct IH as (l1 & l2 & -> & IH); auto. exists (x :: l1), l2. split; [reflexivity|].
    simpl. econstructor; eauto. rewrite aget_aset_ne.
    + apply aget_app; auto.
    + intros ->. apply H1. apply in_or_app; right; left; reflexivity.
Qed.
Lemma chain_nil_inv ns l : chain ns undef_id l -> l = [].
Proof. intros H; inversion H; subst; auto; congruence. Qed.
Lemma chain_lt ns x l : chain ns x l -> forall id, In id l -> id < asize ns.
Proof. induction 1; intros id Hi; [destruct Hi|]. destruct Hi as [<-|Hi]; auto. eapply aget_lt; eauto. Qed.

(** [S lit ids]: an extra condition on the sibling lists (order for the sorted trie) *)
Definition ord_pred := list N -> list N -> Prop.
Record ord_ok (S : ord_pred) : Prop := {
  oo_nil : forall lit, S lit [];
  oo_app : forall lit ids c, (forall id, In id ids -> id < asize lit) -> S lit ids -> S (lit ++ [c]) ids }.
Record bin_ok (S : ord_pred) (st : bin_st) (a : atrie) : Prop := {
  bo_d : dict_ok a (b_lit st);
  bo_fc : asize (b_fc st) = at_size a;
  bo_ns : asize (b_ns st) = at_size a;
  bo_r : a_roots a = 1 \/ a_roots a = 256;
  bo_kids : forall p f, aget (b_fc st) p = Some f -> exists ids, chain (b_ns st) f ids /\ kids a p ids /\ S (b_lit st) ids }.

Lemma bin_search_ok st c : forall l fuel x, chain (b_ns st) x l -> l <> [] ->
  (forall id, In id l -> exists v, aget (b_lit st) id = Some v) ->
  (length l <= fuel)%nat ->
  (exists node, bin_search fuel st c x = Some (inl node) /\ In node l /\ aget (b_lit st) node = Some c) \/
  (exists node, bin_search fuel st c x = Some (inr node) /\ In node l /\
     aget (b_ns st) node = Some undef_id /\ forall id, In id l -> aget (b_lit st) id <> Some c).
Proof.
  induction l as [|y l IH]; intros fuel x Hc Hne Hl Hf; [congruence|].
  inversion Hc as [|x' z l' Hx Hz Hc']; subst.
  destruct fuel as [|fuel]; [simpl in Hf; lia|]. cbn [bin_search].
  destruct (Hl y (or_introl eq_refl)) as [v Hv]. rewrite Hv. cbn [obind].
  destruct (N.eqb_spec c v) as [->|Hcv].
  - left. exists y. repeat split; auto. left; auto.
  - rewrite Hz. cbn [obind]. destruct (N.eqb_spec z undef_id) as [->|Hzu].
    + apply chain_nil_inv in Hc'; subst l. right. exists y. repeat split; auto; [left; auto|].
      intros id [<-|[]]. congruence.
    + destruct (IH fuel z Hc') as [(n & E & Hi & Hn)|(n & E & Hi & Hn & Hall)].
      * intros ->. inversion Hc'; subst; congruence.
      * intros; apply Hl; right; auto.
      * simpl in Hf; lia.
      * left. exists n. rewrite E. repeat split; auto. right; auto.
      * right. exists n. rewrite E. repeat split; auto. { right; auto. }
        intros id [<-|K]; [congruence|auto].
Qed.

(** the common case: a new leaf is linked in *)
Lemma bin_new S st a p c f : ord_ok S -> bin_ok S st a -> p < at_size a -> at_size a < undef_id ->
  aget (b_fc st) p = Some f ->
  (forall id, is_kid a p id -> aget (b_lit st) id <> Some c) ->
  let new := w32 (asize (b_fc st)) in
  forall st' y,
  (b_lit st' = b_lit st /\
   ((b_fc st' = aset (b_fc st) p new /\ b_ns st' = b_ns st /\ y = f /\
       (forall ids, chain (b_ns st) f ids -> S (b_lit st) ids -> kids a p ids -> S (b_lit st ++ [c]) (new :: ids))) \/
    (exists node, b_fc st' = b_fc st /\ b_ns st' = aset (b_ns st) node new /\ is_kid a p node /\
       aget (b_ns st) node = Some y /\
       (forall l1 l2, chain (b_ns st) f (l1 ++ node :: l2) -> S (b_lit st) (l1 ++ node :: l2) -> kids a p (l1 ++ node :: l2) ->
          S (b_lit st ++ [c]) (l1 ++ node :: new :: l2))))) ->
  exists st2, bin_push st' c y = (fst (at_find a p c), st2) /\ bin_ok S st2 (snd (at_find a p c)).
Proof.
  intros Hoo H Hp Hlim Hf Hnot new st' y (Hlit & Hst).
  destruct (notfound_spec a (b_lit st) p c (bo_d _ _ _ H) Hnot) as [Hat Hni].
  rewrite Hat. cbn [fst snd]. change (mk_atrie (a_roots a) (a_ent a ++ [(p, c)])) with (grow a p c).
  assert (Hnew : new = at_size a).
  { unfold new. rewrite (bo_fc _ _ _ H). unfold w32. rewrite N.mod_small; auto. unfold undef_id in Hlim; lia. }
  pose proof (bo_d _ _ _ H) as Hd.
  assert (Hsz : asize (b_fc st') = at_size a).
  { destruct Hst as [(-> & _)|(n & -> & _)]; rewrite ?asize_aset; apply (bo_fc _ _ _ H). }
  unfold bin_push. cbv zeta. eexists. cbn [b_fc]. rewrite asize_app, Hsz.
  replace (at_size a + 1 - 1) with (at_size a) by lia. split; [reflexivity|].
  constructor; cbn [b_fc b_ns b_lit].
  - rewrite Hlit. apply dict_ok_grow; auto.
  - rewrite asize_app, at_size_grow, Hsz. reflexivity.
  - rewrite asize_app, at_size_grow. f_equal.
    destruct Hst as [(_ & -> & _)|(n & _ & -> & _)]; rewrite ?asize_aset; apply (bo_ns _ _ _ H).
  - exact (bo_r _ _ _ H).
  - intros q g Hg.
    destruct (N.eq_dec q (at_size a)) as [->|Hqn].
    { rewrite <- Hsz in Hg. rewrite aget_new in Hg. apply Some_inj in Hg; subst g.
      exists []. split; [constructor|]. split; [|apply (oo_nil _ Hoo)]. apply kids_grow_other; [lia|]. eapply kids_new; eauto. lia. }
    assert (Hql : q < at_size a).
    { apply aget_lt in Hg. rewrite asize_app, Hsz in Hg. lia. }
    rewrite aget_app_lt in Hg by lia.
    destruct Hst as [(Ef & En & -> & HS)|(node & Ef & En & Hk & Hy & HS)]; rewrite Ef in Hg; rewrite En.
    + destruct (N.eq_dec q p) as [->|Hqp].
      * rewrite aget_aset_eq in Hg by (rewrite (bo_fc _ _ _ H); lia). apply Some_inj in Hg; subst g.
        destruct (bo_kids _ _ _ H p f Hf) as (ids & Hc & Hkids & HSo).
        exists (new :: ids). split.
        { econstructor; [lia| |apply chain_app; eauto].
          rewrite Hnew, <- (bo_ns _ _ _ H). apply aget_new. }
        split; [rewrite Hnew; eapply kids_grow_same; eauto|]. rewrite Hlit. auto.
      * rewrite aget_aset_ne in Hg by auto.
        destruct (bo_kids _ _ _ H q g Hg) as (ids & Hc & Hkids & HSo).
        exists ids. split; [apply chain_app; auto|]. split; [apply kids_grow_other; auto|].
        rewrite Hlit. apply (oo_app _ Hoo); auto. intros id Hid. apply Hkids, is_kid_lt in Hid. rewrite (do_len _ _ Hd). auto.
    + destruct (bo_kids _ _ _ H q g Hg) as (ids & Hc & Hkids & HSo).
      assert (Hcomm : aset (b_ns st) node new ++ [y] = aset (b_ns st ++ [y]) node new).
      { apply aget_lt in Hy. unfold asize in Hy. unfold aset. clear - Hy.
        assert (Hy' : (N.to_nat node < length (b_ns st))%nat) by lia.
        revert Hy'. generalize (N.to_nat node) as n. generalize (b_ns st) as l. clear.
        induction l as [|z l IH]; intros [|n] Hn; simpl in *; try lia; auto. f_equal; apply IH; lia. }
      rewrite Hcomm.
      destruct (N.eq_dec q p) as [->|Hqp].
      * assert (Hin : In node ids) by (apply Hkids; auto).
        destruct (chain_insert _ _ _ _ _ new Hc Hin (proj1 Hkids) Hy) as (l1 & l2 & El & Hc').
        { rewrite Hnew, (bo_ns _ _ _ H); reflexivity. } { lia. }
        exists (l1 ++ node :: new :: l2). split; auto.
        assert (g = f) by congruence. subst g.
        subst ids. split; [|rewrite Hlit; auto]. rewrite Hnew. eapply kids_grow_same; eauto.
        replace (l1 ++ node :: at_size a :: l2) with ((l1 ++ [node]) ++ at_size a :: l2) by (rewrite <- app_assoc; reflexivity).
        replace (l1 ++ node :: l2) with ((l1 ++ [node]) ++ l2) by (rewrite <- app_assoc; reflexivity).
        symmetry. apply Permutation_middle.
      * exists ids. split; [|split; [apply kids_grow_other; auto|]].
        2:{ rewrite Hlit. apply (oo_app _ Hoo); auto. intros id Hid. apply Hkids, is_kid_lt in Hid. rewrite (do_len _ _ Hd). auto. }
        apply chain_set; [apply chain_app; auto|]. intros Hin. apply Hkids in Hin.
        apply Hqp. eapply is_kid_fun; eauto.
Qed.

Lemma bin_init_ok S k : ord_ok S -> k = 1 \/ k = 256 -> bin_ok S (bin_init k) (mk_atrie k []).
Proof.
  intros Hoo Hk. constructor; simpl; auto.
  - constructor; simpl; auto using NoDup_nil.
    + unfold asize, at_size. rewrite map_length, seq_length. simpl; lia.
    + intros n p c Hn; destruct n; discriminate.
    + intros n p c Hn; destruct n; discriminate.
  - unfold asize, at_size. rewrite repeat_length. simpl; lia.
  - unfold asize, at_size. rewrite repeat_length. simpl; lia.
  - intros p f Hf. apply aget_repeat in Hf; subst f. exists []. split; [constructor|].
    split; [|apply (oo_nil _ Hoo)]. split; [constructor|]. intros id; split; [intros []|]. intros (n & c & _ & Hn); destruct n; discriminate.
Qed.

Lemma kid_lit a lit p id : dict_ok a lit -> is_kid a p id -> exists v, aget lit id = Some v.
Proof. intros H K. apply is_kid_lt in K. apply aget_ex. rewrite (do_len _ _ H). auto. Qed.

Definition any_order : ord_pred := fun _ _ => True.
Lemma any_order_ok : ord_ok any_order.
Proof. constructor; unfold any_order; auto. Qed.

Lemma bin_find_ok st a p c : bin_ok any_order st a -> p < at_size a -> at_size a < undef_id ->
  exists st', bin_find st p c = Some (fst (at_find a p c), st') /\ bin_ok any_order st' (snd (at_find a p c)).
Proof.
  intros H Hp Hlim. unfold bin_find.
  destruct (aget_ex (b_fc st) p) as [f Hf]. { rewrite (bo_fc _ _ _ H); auto. }
  rewrite Hf. cbn [obind].
  destruct (bo_kids _ _ _ H p f Hf) as (ids & Hc & Hkids & HSo).
  destruct (N.eqb_spec f undef_id) as [Hu|Hu].
  - subst f. apply chain_nil_inv in Hc; subst ids.
    destruct (bin_new any_order st a p c undef_id any_order_ok H Hp Hlim Hf) with (st' := mk_bin (aset (b_fc st) p (w32 (asize (b_fc st)))) (b_ns st) (b_lit st)) (y := undef_id)
      as (st2 & E & Hok).
    { intros id Hk. apply Hkids in Hk. destruct Hk. }
    { split; [reflexivity|]. left; unfold any_order; auto. }
    exists st2. rewrite E. auto.
  - destruct (bin_search_ok st c ids (S (length (b_fc st))) f Hc) as [(n & E & Hi & Hn)|(n & E & Hi & Hn & Hall)].
    + intros ->. inversion Hc; subst; congruence.
    + intros id Hi. apply Hkids in Hi. eapply kid_lit; eauto. apply (bo_d _ _ _ H).
    + pose proof (kids_len _ _ _ Hkids). pose proof (bo_fc _ _ _ H) as L. unfold asize in L. lia.
    + rewrite E. cbn [obind]. apply Hkids in Hi.
      rewrite (found_spec _ _ _ _ _ (bo_d _ _ _ H) Hi Hn). exists st. split; auto.
    + rewrite E. cbn [obind].
      destruct (bin_new any_order st a p c f any_order_ok H Hp Hlim Hf) with (st' := mk_bin (b_fc st) (aset (b_ns st) n (w32 (asize (b_fc st)))) (b_lit st)) (y := undef_id)
        as (st2 & E2 & Hok).
      { intros id Hk. apply Hkids in Hk. auto. }
      { split; [reflexivity|]. right. exists n. unfold any_order; repeat split; auto. apply Hkids; auto. }
      exists st2. rewrite E2. auto.
Qed.

Lemma binary_trie_ok_pf : trie_ok (2 ^ 32 - 1) binary_trie.
Proof.
  exists (bin_ok any_order). repeat split.
  - intros k Hk. eexists; split; [reflexivity|]. apply bin_init_ok; auto using any_order_ok.
  - intros st a k _ Hk. eexists; split; [reflexivity|]. apply bin_init_ok; auto using any_order_ok.
  - intros st a H. simpl. apply (bo_fc _ _ _ H).
  - intros st a p c H Hp _ Hl. apply bin_find_ok; auto.
Qed.

(** ** The sorted trie *)
From Coq Require Import Sorted.
Definition litlt (lit : list N) (x y : N) : Prop :=
  exists u v, aget lit x = Some u /\ aget lit y = Some v /\ u < v.
Definition lit_order : ord_pred := fun lit ids => StronglySorted (litlt lit) ids.

Lemma SS_ext {A} (R R' : A -> A -> Prop) l : (forall x y, In x l -> In y l -> R x y -> R' x y) ->
  StronglySorted R l -> StronglySorted R' l.
Proof.
  induction l as [|x l IH]; intros H HS; [constructor|]. inversion HS; subst.
  constructor.
  - apply IH; auto. intros; apply H; try right; auto.
  - rewrite Forall_forall in *. intros y Hy. apply H; [left; auto|right; auto|auto].
Qed.
Lemma SS_insert {A} (R : A -> A -> Prop) l1 n l2 : StronglySorted R (l1 ++ l2) ->
  (forall x, In x l1 -> R x n) -> (forall x, In x l2 -> R n x) -> StronglySorted R (l1 ++ n :: l2).
Proof.
  induction l1 as [|x l1 IH]; simpl; intros HS H1 H2.
  - constructor; auto. apply Forall_forall; auto.
  - inversion HS as [|? ? HS' HF]; subst. constructor; [apply IH; auto|].
    rewrite Forall_forall in *. intros y Hy. apply in_app_or in Hy. destruct Hy as [Hy|[<-|Hy]].
    + apply HF, in_or_app; auto. + apply H1; auto. + apply HF, in_or_app; auto.
Qed.
Lemma SS_app_lt {A} (R : A -> A -> Prop) l1 l2 x y : StronglySorted R (l1 ++ l2) ->
  In x l1 -> In y l2 -> R x y.
Proof.
  induction l1 as [|z l1 IH]; simpl; intros HS H1 H2; [destruct H1|].
  inversion HS as [|? ? HS' HF]; subst. destruct H1 as [<-|H1]; auto.
  rewrite Forall_forall in HF. apply HF, in_or_app; auto.
Qed.
Lemma litlt_app lit c x y : x < asize lit -> y < asize lit -> litlt lit x y -> litlt (lit ++ [c]) x y.
Proof. intros _ _ (u & v & H1 & H2 & H3). exists u, v. auto using aget_app. Qed.
Lemma lit_order_ok : ord_ok lit_order.
Proof.
  constructor; unfold lit_order; [constructor|].
  intros lit ids c Hb HS. eapply SS_ext; [|exact HS]. intros; apply litlt_app; auto.
Qed.

Lemma bins_search_ok st c : forall l fuel x, chain (b_ns st) x l -> l <> [] ->
  lit_order (b_lit st) l ->
  (forall id, In id l -> exists v, aget (b_lit st) id = Some v) ->
  (forall v, aget (b_lit st) x = Some v -> v <= c) ->
  (length l <= fuel)%nat ->
  (exists node, bins_search fuel st c x = Some (inl node) /\ In node l /\ aget (b_lit st) node = Some c) \/
  (exists node nx v, bins_search fuel st c x = Some (inr (node, nx)) /\ In node l /\
     aget (b_ns st) node = Some nx /\ aget (b_lit st) node = Some v /\ v < c /\
     forall id w, In id l -> aget (b_lit st) id = Some w -> w <= v \/ c < w).
Proof.
  induction l as [|y l IH]; intros fuel x Hc Hne HS Hl Hx Hf; [congruence|].
  inversion Hc as [|x' z l' Hx' Hz Hc']; subst. inversion HS as [|? ? HS' HF]; subst.
  rewrite Forall_forall in HF.
  destruct fuel as [|fuel]; [simpl in Hf; lia|]. cbn [bins_search].
  destruct (Hl y (or_introl eq_refl)) as [v Hv]. rewrite Hv. cbn [obind].
  pose proof (Hx v Hv) as Hvc.
  destruct (N.eqb_spec c v) as [->|Hcv].
  - left. exists y. repeat split; auto. left; auto.
  - rewrite Hz. cbn [obind]. destruct (N.eqb_spec z undef_id) as [->|Hzu].
    + apply chain_nil_inv in Hc'; subst l. right. exists y, undef_id, v.
      repeat split; auto; [left; auto|lia|].
      intros id w [<-|[]] Hw. left. rewrite Hv in Hw. apply Some_inj in Hw. lia.
    + assert (Hl0 : exists l0, l = z :: l0) by (inversion Hc'; subst; eauto; congruence).
      destruct Hl0 as [l0 ->].
      destruct (Hl z) as [lz Hlz]; [right; left; auto|]. rewrite Hlz. cbn [obind].
      destruct (N.ltb_spec c lz) as [Hclz|Hclz].
      * right. exists y, z, v. repeat split; auto; [left; auto|lia|].
        intros id w Hi Hw. destruct Hi as [<-|[<-|Hi]].
        { left. rewrite Hv in Hw; apply Some_inj in Hw; lia. }
        { right. rewrite Hlz in Hw; apply Some_inj in Hw; lia. }
        { right. inversion HS' as [|? ? _ HF']; subst. rewrite Forall_forall in HF'.
          destruct (HF' id Hi) as (u & w' & A & B & C). rewrite Hlz in A; rewrite Hw in B.
          apply Some_inj in A, B. lia. }
      * destruct (IH fuel z Hc') as [(n & E & Hi & Hn)|(n & nx & v' & E & Hi & Hn & Hv' & Hlt & Hall)]; auto.
        { discriminate. } { intros id Hid; apply Hl; right; auto. }
        { intros w Hw. rewrite Hlz in Hw; apply Some_inj in Hw; lia. } { simpl in *; lia. }
        { left. exists n. rewrite E. repeat split; auto. right; auto. }
        { right. exists n, nx, v'. rewrite E. repeat split; auto. { right; auto. }
          intros id w [<-|Hid] Hw; [|eauto]. left.
          destruct (HF n Hi) as (u & w' & A & B & C). rewrite Hw in A; rewrite Hv' in B.
          apply Some_inj in A, B. lia. }
Qed.

Lemma bins_find_ok st a p c : bin_ok lit_order st a -> p < at_size a -> at_size a < undef_id ->
  exists st', bins_find st p c = Some (fst (at_find a p c), st') /\ bin_ok lit_order st' (snd (at_find a p c)).
Proof.
  intros H Hp Hlim. unfold bins_find.
  destruct (aget_ex (b_fc st) p) as [f Hf]. { rewrite (bo_fc _ _ _ H); auto. }
  rewrite Hf. cbn [obind].
  destruct (bo_kids _ _ _ H p f Hf) as (ids & Hc & Hkids & HSo).
  pose proof (bo_d _ _ _ H) as Hd.
  assert (Hnew : w32 (asize (b_fc st)) = at_size a).
  { rewrite (bo_fc _ _ _ H). unfold w32. rewrite N.mod_small; auto. unfold undef_id in Hlim; lia. }
  assert (Hnl : forall d, aget (b_lit st ++ [d]) (w32 (asize (b_fc st))) = Some d).
  { intros d. rewrite Hnew, <- (do_len _ _ Hd). apply aget_new. }
  assert (Hlits : forall id, In id ids -> exists v, aget (b_lit st) id = Some v).
  { intros id Hi. apply Hkids in Hi. eapply kid_lit; eauto. }
  destruct (N.eqb_spec f undef_id) as [Hu|Hu].
  - subst f. apply chain_nil_inv in Hc; subst ids.
    destruct (bin_new lit_order st a p c undef_id lit_order_ok H Hp Hlim Hf) with (st' := mk_bin (aset (b_fc st) p (w32 (asize (b_fc st)))) (b_ns st) (b_lit st)) (y := undef_id)
      as (st2 & E & Hok).
    { intros id Hk. apply Hkids in Hk. destruct Hk. }
    { split; [reflexivity|]. left. repeat split; auto. intros ids Hci _ _. apply chain_nil_inv in Hci; subst ids.
      constructor; constructor. }
    exists st2. rewrite E. auto.
  - assert (Hids : exists l0, ids = f :: l0) by (inversion Hc; subst; eauto; congruence).
    destruct Hids as [l0 Hids].
    destruct (Hlits f) as [v Hv]. { rewrite Hids; left; auto. } rewrite Hv. cbn [obind].
    destruct (N.ltb_spec c v) as [Hcv|Hcv].
    + assert (Hall : forall id w, In id ids -> aget (b_lit st) id = Some w -> c < w).
      { intros id w Hi Hw. subst ids. destruct Hi as [<-|Hi]; [rewrite Hv in Hw; apply Some_inj in Hw; lia|].
        inversion HSo as [|? ? _ HF]; subst. rewrite Forall_forall in HF.
        destruct (HF id Hi) as (u & w' & A & B & C). rewrite Hv in A; rewrite Hw in B. apply Some_inj in A, B. lia. }
      destruct (bin_new lit_order st a p c f lit_order_ok H Hp Hlim Hf) with (st' := mk_bin (aset (b_fc st) p (w32 (asize (b_fc st)))) (b_ns st) (b_lit st)) (y := f)
        as (st2 & E & Hok).
      { intros id Hk Hl. apply Hkids in Hk. specialize (Hall _ _ Hk Hl). lia. }
      { split; [reflexivity|]. left. repeat split; auto. intros ids' Hc' HS' Hk'.
        constructor; [apply (oo_app _ lit_order_ok); auto|].
        - intros id Hid. apply Hk', is_kid_lt in Hid. rewrite (do_len _ _ Hd). auto.
        - apply Forall_forall. intros id Hid. apply Hk' in Hid. apply Hkids in Hid.
          destruct (Hlits id Hid) as [w Hw]. exists c, w. split; [apply Hnl|]. split; [apply aget_app; auto|].
          apply (Hall id); auto. }
      exists st2. rewrite E. auto.
    + destruct (bins_search_ok st c ids (S (length (b_fc st))) f Hc)
        as [(n & E & Hi & Hn)|(n & nx & w & E & Hi & Hn & Hw & Hlt & Hall)]; auto.
      * subst ids; discriminate.
      * intros u Hu'. rewrite Hv in Hu'. apply Some_inj in Hu'; lia.
      * pose proof (kids_len _ _ _ Hkids). pose proof (bo_fc _ _ _ H) as L. unfold asize in L. lia.
      * rewrite E. cbn [obind]. apply Hkids in Hi.
        rewrite (found_spec _ _ _ _ _ Hd Hi Hn). exists st. split; auto.
      * rewrite E. cbn [obind].
        destruct (bin_new lit_order st a p c f lit_order_ok H Hp Hlim Hf) with (st' := mk_bin (b_fc st) (aset (b_ns st) n (w32 (asize (b_fc st)))) (b_lit st)) (y := nx)
          as (st2 & E2 & Hok).
        { intros id Hk Hl. apply Hkids in Hk. destruct (Hall _ _ Hk Hl); lia. }
        { split; [reflexivity|]. right. exists n. repeat split; auto. { apply Hkids; auto. }
          intros l1 l2 Hc' HS' Hk'.
          replace (l1 ++ n :: w32 (asize (b_fc st)) :: l2) with ((l1 ++ [n]) ++ w32 (asize (b_fc st)) :: l2) by (rewrite <- app_assoc; reflexivity).
          replace (l1 ++ n :: l2) with ((l1 ++ [n]) ++ l2) in * by (rewrite <- app_assoc; reflexivity).
          apply SS_insert.
          - apply (oo_app _ lit_order_ok); auto.
            intros id Hid. apply Hk', is_kid_lt in Hid. rewrite (do_len _ _ Hd). auto.
          - intros x Hx. apply in_app_or in Hx. destruct Hx as [Hx|[<-|[]]].
            + assert (Hxn : litlt (b_lit st) x n).
              { rewrite <- app_assoc in HS'. eapply SS_app_lt; [exact HS'|auto|left; auto]. }
              destruct Hxn as (u & u' & A & B & C). rewrite Hw in B. apply Some_inj in B; subst u'.
              exists u, c. split; [apply aget_app; auto|]. split; [apply Hnl|lia].
            + exists w, c. split; [apply aget_app; auto|]. split; [apply Hnl|lia].
          - intros x Hx.
            assert (Hxn : litlt (b_lit st) n x).
            { eapply SS_app_lt; [exact HS'|apply in_or_app; right; left; auto|auto]. }
            destruct Hxn as (u & u' & A & B & C). rewrite Hw in A. apply Some_inj in A; subst u.
            exists c, u'. split; [apply Hnl|]. split; [apply aget_app; auto|].
            assert (Hxi : In x ids) by (apply Hkids, Hk', in_or_app; auto).
            destruct (Hall _ _ Hxi B); lia. }
        exists st2. rewrite E2. auto.
Qed.

Lemma binary_sorted_trie_ok_pf : trie_ok (2 ^ 32 - 1) binary_sorted_trie.
Proof.
  exists (bin_ok lit_order). repeat split.
  - intros k Hk. eexists; split; [reflexivity|]. apply bin_init_ok; auto using lit_order_ok.
  - intros st a k _ Hk. eexists; split; [reflexivity|]. apply bin_init_ok; auto using lit_order_ok.
  - intros st a H. simpl. apply (bo_fc _ _ _ H).
  - intros st a p c H Hp _ Hl. apply bins_find_ok; auto.
Qed.

(** ** The ternary trie *)
Inductive btree := BL | BN (l : btree) (x : N) (r : btree).
Fixpoint belems (t : btree) : list N :=
  match t with BL => [] | BN l x r => belems l ++ x :: belems r end.
Inductive ttree (ls rs : list N) : N -> btree -> Prop :=
| tt_nil : ttree ls rs undef_id BL
| tt_node : forall x y z l r, x <> undef_id -> aget ls x = Some y -> aget rs x = Some z ->
    ttree ls rs y l -> ttree ls rs z r -> ttree ls rs x (BN l x r).

Lemma ttree_app ls rs x t u v : ttree ls rs x t -> ttree (ls ++ [u]) (rs ++ [v]) x t.
Proof. induction 1; econstructor; eauto using aget_app. Qed.
Lemma ttree_set ls rs x t n v : ttree ls rs x t -> ~ In n (belems t) ->
  ttree (aset ls n v) rs x t /\ ttree ls (aset rs n v) x t.
Proof.
  induction 1; simpl; intros Hn; [split; constructor|]. rewrite in_app_iff in Hn. simpl in Hn.
  destruct IHttree1 as [A1 A2]; [tauto|]. destruct IHttree2 as [B1 B2]; [tauto|].
  split; econstructor; eauto; rewrite aget_aset_ne; auto; tauto.
Qed.
Lemma ttree_nil_inv ls rs t : ttree ls rs undef_id t -> t = BL.
Proof. intros H; inversion H; subst; auto; congruence. Qed.

Lemma In_belems_nil t : (forall x, ~ In x (belems t)) -> t = BL.
Proof. destruct t; auto. intros H. exfalso. apply (H x). simpl. apply in_or_app; right; left; auto. Qed.

(** hanging [new] below a node whose left (right) slot is free *)
Fixpoint bins_at (lft : bool) (n new : N) (t : btree) : btree :=
  match t with
  | BL => BL
  | BN l x r => if x =? n then (if lft then BN (BN BL new BL) x r else BN l x (BN BL new BL))
                else BN (bins_at lft n new l) x (bins_at lft n new r)
  end.
Lemma bins_at_id lft n new t : ~ In n (belems t) -> bins_at lft n new t = t.
Proof.
  induction t as [|l IHl x r IHr]; simpl; auto. rewrite in_app_iff; simpl. intros H.
  replace (x =? n) with false by (symmetry; apply N.eqb_neq; intros ->; tauto).
  rewrite IHl, IHr; tauto.
Qed.
Lemma ttree_insert (lft : bool) ls rs x t n new : ttree ls rs x t -> NoDup (belems t) -> In n (belems t) ->
  aget (if lft then ls else rs) n = Some undef_id -> new = asize ls -> asize ls = asize rs -> new <> undef_id ->
  ttree (if lft then aset (ls ++ [undef_id]) n new else ls ++ [undef_id])
        (if lft then rs ++ [undef_id] else aset (rs ++ [undef_id]) n new) x (bins_at lft n new t) /\
  Permutation (belems (bins_at lft n new t)) (new :: belems t).
Proof.
  intros H. induction H as [|x y z l r Hx Hy Hz Hl IHl Hr IHr]; intros Hnd Hi Hu Hnew Heq Hne; [destruct Hi|].
  assert (Hxl : x < asize ls) by (eapply aget_lt; eauto).
  cbn [belems] in Hnd.
  assert (Hnx : ~ In x (belems l) /\ ~ In x (belems r)).
  { apply NoDup_remove_2 in Hnd. rewrite in_app_iff in Hnd. tauto. }
  assert (Hdisj : forall m, In m (belems l) -> ~ In m (belems r)).
  { intros m Hm Hr'. clear - Hnd Hm Hr'. induction (belems l) as [|w L IH]; [destruct Hm|].
    simpl in Hnd. inversion Hnd; subst. destruct Hm as [->|Hm]; auto.
    apply H1. apply in_or_app; right; right; auto. }
  assert (NDl : NoDup (belems l)) by (apply NoDup_app_remove_r in Hnd || (clear - Hnd; induction (belems l); [constructor|]; inversion Hnd; subst; constructor; [intros K; apply H1, in_or_app; auto|auto]); auto).
  assert (NDr : NoDup (belems r)).
  { apply NoDup_remove_1 in Hnd. clear - Hnd. induction (belems l); auto. inversion Hnd; auto. }
  set (ls' := if lft then aset (ls ++ [undef_id]) n new else ls ++ [undef_id]) in *.
  set (rs' := if lft then rs ++ [undef_id] else aset (rs ++ [undef_id]) n new) in *.
  assert (Frame : forall w t, ttree ls rs w t -> ~ In n (belems t) -> ttree ls' rs' w t).
  { intros w t Ht Hn. unfold ls', rs'. apply (ttree_app _ _ _ _ undef_id undef_id) in Ht.
    destruct lft; apply ttree_set; auto. }
  assert (Hleaf : n < asize ls -> ttree ls' rs' new (BN BL new BL)).
  { intros Hn. assert (A : aget ls' new = Some undef_id).
    { unfold ls'. destruct lft; [rewrite aget_aset_ne by lia|]; subst new; apply aget_new. }
    assert (B : aget rs' new = Some undef_id).
    { unfold rs'. destruct lft; [|rewrite aget_aset_ne by lia]; subst new; rewrite Heq; apply aget_new. }
    econstructor; eauto; constructor. }
  cbn [bins_at]. destruct (N.eqb_spec x n) as [->|Hxn].
  - destruct lft.
    + rewrite Hy in Hu. apply Some_inj in Hu; subst y. apply ttree_nil_inv in Hl; subst l.
      split; [|simpl; apply Permutation_refl].
      econstructor; eauto.
      * unfold ls'. apply aget_aset_eq. rewrite asize_app. lia.
      * unfold rs'. apply aget_app; eauto.
      * apply Frame; auto. tauto.
    + rewrite Hz in Hu. apply Some_inj in Hu; subst z. apply ttree_nil_inv in Hr; subst r.
      split.
      * econstructor; eauto.
        { unfold ls'. apply aget_app; eauto. }
        { unfold rs'. apply aget_aset_eq. rewrite asize_app. lia. }
        { apply Frame; auto. tauto. }
      * simpl. replace (belems l ++ [n; new]) with ((belems l ++ [n]) ++ [new]) by (rewrite <- app_assoc; reflexivity).
        symmetry. apply Permutation_cons_append.
  - assert (Hg1 : aget ls' x = Some y).
    { unfold ls'. destruct lft; [rewrite aget_aset_ne by auto|]; apply aget_app; auto. }
    assert (Hg2 : aget rs' x = Some z).
    { unfold rs'. destruct lft; [|rewrite aget_aset_ne by auto]; apply aget_app; auto. }
    simpl in Hi. apply in_app_or in Hi. destruct Hi as [Hi|[->|Hi]]; [|congruence|].
    + destruct IHl as [IHl1 IHl2]; auto. rewrite (bins_at_id _ _ _ r) by auto. split.
      * econstructor; eauto.
      * simpl. rewrite IHl2. reflexivity.
    + assert (~ In n (belems l)) by (intros K; apply (Hdisj _ K Hi)).
      destruct IHr as [IHr1 IHr2]; auto. rewrite (bins_at_id _ _ _ l) by auto. split.
      * econstructor; eauto.
      * simpl. rewrite IHr2. symmetry. 
        replace (belems l ++ x :: new :: belems r) with ((belems l ++ [x]) ++ new :: belems r) by (rewrite <- app_assoc; reflexivity).
        replace (belems l ++ x :: belems r) with ((belems l ++ [x]) ++ belems r) by (rewrite <- app_assoc; reflexivity).
        apply Permutation_middle.
Qed.

(** search-tree order by literal *)
Inductive tord (lit : list N) : btree -> Prop :=
| to_nil : tord lit BL
| to_node : forall l x r v, aget lit x = Some v -> tord lit l -> tord lit r ->
    (forall id, In id (belems l) -> exists w, aget lit id = Some w /\ w < v) ->
    (forall id, In id (belems r) -> exists w, aget lit id = Some w /\ v < w) -> tord lit (BN l x r).

Lemma tord_app lit c t : tord lit t -> tord (lit ++ [c]) t.
Proof.
  induction 1; [constructor|]. econstructor; eauto using aget_app.
  - intros id Hi. destruct (H2 id Hi) as (w & A & B). eauto using aget_app.
  - intros id Hi. destruct (H3 id Hi) as (w & A & B). eauto using aget_app.
Qed.

Lemma NoDup_bn l x r : NoDup (belems (BN l x r)) ->
  NoDup (belems l) /\ NoDup (belems r) /\ ~ In x (belems l) /\ ~ In x (belems r) /\
  (forall m, In m (belems l) -> ~ In m (belems r)).
Proof.
  cbn [belems]. intros Hnd.
  assert (Hnx : ~ In x (belems l) /\ ~ In x (belems r)).
  { apply NoDup_remove_2 in Hnd. rewrite in_app_iff in Hnd. tauto. }
  assert (Hdisj : forall m, In m (belems l) -> ~ In m (belems r)).
  { intros m Hm Hr'. clear - Hnd Hm Hr'. induction (belems l) as [|w L IH]; [destruct Hm|].
    simpl in Hnd. inversion Hnd; subst. destruct Hm as [->|Hm]; auto.
    apply H1. apply in_or_app; right; right; auto. }
  assert (NDl : NoDup (belems l)).
  { clear - Hnd. induction (belems l); [constructor|]. inversion Hnd; subst.
    constructor; [intros K; apply H1, in_or_app; auto|auto]. }
  assert (NDr : NoDup (belems r)).
  { apply NoDup_remove_1 in Hnd. clear - Hnd. induction (belems l); auto. inversion Hnd; auto. }
  tauto.
Qed.

Lemma In_bins_at s n new t m : In m (belems (bins_at s n new t)) -> m = new \/ In m (belems t).
Proof.
  induction t as [|l IHl x r IHr]; simpl; auto.
  destruct (x =? n); [destruct s|]; simpl; rewrite !in_app_iff; simpl; intuition.
Qed.

Lemma ter_search_ok st c new : forall t fuel x, ttree (r_ls st) (r_rs st) x t -> t <> BL ->
  NoDup (belems t) -> tord (r_lit st) t -> aget (r_lit st ++ [c]) new = Some c ->
  (length (belems t) <= fuel)%nat ->
  (exists node, ter_search fuel st c x = Some (inl node) /\ In node (belems t) /\ aget (r_lit st) node = Some c) \/
  (exists s node, ter_search fuel st c x = Some (inr (s, node)) /\ In node (belems t) /\
     aget (if s : bool then r_ls st else r_rs st) node = Some undef_id /\
     (forall id, In id (belems t) -> aget (r_lit st) id <> Some c) /\
     tord (r_lit st ++ [c]) (bins_at s node new t)).
Proof.
  induction t as [|l IHl y r IHr]; intros fuel x Ht Hne Hnd Ho Hnew Hf; [congruence|].
  apply NoDup_bn in Hnd. destruct Hnd as (NDl & NDr & Nl & Nr & Hdisj).
  inversion Ht as [|x' yl yr l' r' Hx Hyl Hyr Hl Hr]; subst.
  inversion Ho as [|l' x' r' v Hv Ol Or Hlt Hgt]; subst.
  cbn [belems] in Hf. rewrite app_length in Hf. simpl in Hf.
  assert (Hleaf : tord (r_lit st ++ [c]) (BN BL new BL)).
  { econstructor; eauto; try constructor; intros ? []. }
  destruct fuel as [|fuel]; [lia|]. cbn [ter_search]. rewrite Hv. cbn [obind].
  destruct (N.ltb_spec c v) as [Hcv|Hcv].
  - assert (HRc : forall id, In id (belems r) -> aget (r_lit st) id <> Some c).
    { intros id Hi. destruct (Hgt id Hi) as (w & A & B). rewrite A. intros K; apply Some_inj in K; lia. }
    rewrite Hyl. cbn [obind]. destruct (N.eqb_spec yl undef_id) as [->|Hu].
    + apply ttree_nil_inv in Hl; subst l. right. exists true, y.
      split; [reflexivity|]. split; [left; auto|]. split; [auto|]. split.
      * intros id [<-|Hi]; auto. rewrite Hv; intros K; apply Some_inj in K; lia.
      * cbn [bins_at]. rewrite N.eqb_refl. econstructor; eauto using aget_app, tord_app.
        { intros id [<-|[]]. eauto. }
        { intros id Hi. destruct (Hgt id Hi) as (w & A & B). eauto using aget_app. }
    + destruct (IHl fuel yl Hl) as [(n & E & Hi & Hn)|(s & n & E & Hi & Hn & Hall & Ho')]; auto; try lia.
      { intros ->. inversion Hl; congruence. }
      * left. exists n. rewrite E. repeat split; auto. simpl. apply in_or_app; auto.
      * right. exists s, n. rewrite E. split; [auto|]. split; [simpl; apply in_or_app; auto|]. split; [auto|]. split.
        { intros id Hid. cbn [belems] in Hid. apply in_app_or in Hid. destruct Hid as [Hid|[<-|Hid]]; auto.
          rewrite Hv; intros K; apply Some_inj in K; lia. }
        cbn [bins_at]. replace (y =? n) with false by (symmetry; apply N.eqb_neq; intros ->; auto).
        rewrite (bins_at_id _ _ _ r) by auto. econstructor; eauto using aget_app, tord_app.
        { intros id Hid. apply In_bins_at in Hid. destruct Hid as [->|Hid]; [eauto|].
          destruct (Hlt id Hid) as (w & A & B). eauto using aget_app. }
        { intros id Hid. destruct (Hgt id Hid) as (w & A & B). eauto using aget_app. }
  - assert (HLc : forall id, In id (belems l) -> aget (r_lit st) id <> Some c).
    { intros id Hi. destruct (Hlt id Hi) as (w & A & B). rewrite A. intros K; apply Some_inj in K; lia. }
    destruct (N.ltb_spec v c) as [Hvc|Hvc].
    2:{ left. exists y. assert (v = c) by lia. subst v. repeat split; auto. simpl. apply in_or_app; right; left; auto. }
    rewrite Hyr. cbn [obind]. destruct (N.eqb_spec yr undef_id) as [->|Hu].
    + apply ttree_nil_inv in Hr; subst r. right. exists false, y.
      split; [reflexivity|]. split; [simpl; apply in_or_app; right; left; auto|]. split; [auto|]. split.
      * intros id Hid. cbn [belems] in Hid. apply in_app_or in Hid. destruct Hid as [Hid|[<-|[]]]; auto.
        rewrite Hv; intros K; apply Some_inj in K; lia.
      * cbn [bins_at]. rewrite N.eqb_refl. econstructor; eauto using aget_app, tord_app.
        { intros id Hi. destruct (Hlt id Hi) as (w & A & B). eauto using aget_app. }
        { intros id [<-|[]]. eauto. }
    + destruct (IHr fuel yr Hr) as [(n & E & Hi & Hn)|(s & n & E & Hi & Hn & Hall & Ho')]; auto; try lia.
      { intros ->. inversion Hr; congruence. }
      * left. exists n. rewrite E. repeat split; auto. simpl. apply in_or_app; right; right; auto.
      * right. exists s, n. rewrite E. split; [auto|]. split; [simpl; apply in_or_app; right; right; auto|]. split; [auto|]. split.
        { intros id Hid. cbn [belems] in Hid. apply in_app_or in Hid. destruct Hid as [Hid|[<-|Hid]]; auto.
          rewrite Hv; intros K; apply Some_inj in K; lia. }
        cbn [bins_at]. replace (y =? n) with false by (symmetry; apply N.eqb_neq; intros ->; auto).
        rewrite (bins_at_id _ _ _ l) by (intros K; apply (Hdisj _ K Hi)). econstructor; eauto using aget_app, tord_app.
        { intros id Hid. destruct (Hlt id Hid) as (w & A & B). eauto using aget_app. }
        { intros id Hid. apply In_bins_at in Hid. destruct Hid as [->|Hid]; [eauto|].
          destruct (Hgt id Hid) as (w & A & B). eauto using aget_app. }
Qed.

Record ter_ok (st : ter_st) (a : atrie) : Prop := {
  to_d : dict_ok a (r_lit st);
  to_fc : asize (r_fc st) = at_size a;
  to_ls : asize (r_ls st) = at_size a;
  to_rs : asize (r_rs st) = at_size a;
  to_kids : forall p f, aget (r_fc st) p = Some f ->
    exists t, ttree (r_ls st) (r_rs st) f t /\ kids a p (belems t) /\ tord (r_lit st) t }.

Lemma ter_init_ok k : ter_ok (ter_init k) (mk_atrie k []).
Proof.
  constructor; simpl; auto.
  - constructor; simpl; auto using NoDup_nil.
    + unfold asize, at_size. rewrite map_length, seq_length. simpl; lia.
    + intros n p c Hn; destruct n; discriminate.
    + intros n p c Hn; destruct n; discriminate.
  - unfold asize, at_size. rewrite repeat_length. simpl; lia.
  - unfold asize, at_size. rewrite repeat_length. simpl; lia.
  - unfold asize, at_size. rewrite repeat_length. simpl; lia.
  - intros p f Hf. apply aget_repeat in Hf; subst f. exists BL. split; [constructor|]. split; [|constructor].
    split; [constructor|]. intros id; split; [intros []|]. intros (n & c & _ & Hn); destruct n; discriminate.
Qed.

Lemma aset_app l n v y : n < asize l -> aset l n v ++ [y] = aset (l ++ [y]) n v.
Proof.
  unfold asize, aset. intros H. assert (Hy' : (N.to_nat n < length l)%nat) by lia.
  revert Hy'. generalize (N.to_nat n) as m. clear.
  induction l as [|z l IH]; intros [|m] Hm; simpl in *; try lia; auto. f_equal; apply IH; lia.
Qed.

Lemma ter_find_ok st a p c : ter_ok st a -> p < at_size a -> at_size a < undef_id ->
  exists st', ter_find st p c = Some (fst (at_find a p c), st') /\ ter_ok st' (snd (at_find a p c)).
Proof.
  intros H Hp Hlim. unfold ter_find.
  destruct (aget_ex (r_fc st) p) as [f Hf]. { rewrite (to_fc _ _ H); auto. }
  rewrite Hf. cbn [obind].
  destruct (to_kids _ _ H p f Hf) as (t & Ht & Hkids & Ho).
  pose proof (to_d _ _ H) as Hd. set (new := w32 (asize (r_fc st))) in *.
  assert (Hnew : new = at_size a).
  { unfold new. rewrite (to_fc _ _ H). unfold w32. rewrite N.mod_small; auto. unfold undef_id in Hlim; lia. }
  assert (Hnl : forall d, aget (r_lit st ++ [d]) new = Some d).
  { intros d. rewrite Hnew, <- (do_len _ _ Hd). apply aget_new. }
  (* the other parents, and the new node, after a push *)
  assert (Hoth : forall ls' rs' q g, 
     (forall n, is_kid a p n -> (ls' = r_ls st ++ [undef_id] /\ rs' = aset (r_rs st ++ [undef_id]) n new) \/ (ls' = aset (r_ls st ++ [undef_id]) n new /\ rs' = r_rs st ++ [undef_id])
        -> q <> p -> aget (r_fc st) q = Some g ->
       exists t', ttree ls' rs' g t' /\ kids (grow a p c) q (belems t') /\ tord (r_lit st ++ [c]) t')).
  { intros ls' rs' q g n Hn Hcase Hqp Hg. destruct (to_kids _ _ H q g Hg) as (t' & Ht' & Hk' & Ho').
    exists t'. split; [|split; [apply kids_grow_other; auto|apply tord_app; auto]].
    assert (Hni : ~ In n (belems t')) by (intros K; apply Hk' in K; apply Hqp; eapply is_kid_fun; eauto).
    apply (ttree_app _ _ _ _ undef_id undef_id) in Ht'.
    destruct Hcase as [[-> ->]|[-> ->]]; apply ttree_set; auto. }
  assert (Hnewkids : kids (grow a p c) (at_size a) []).
  { apply kids_grow_other; [lia|]. eapply kids_new; eauto. lia. }
  destruct (N.eqb_spec f undef_id) as [Hu|Hu].
  - subst f. apply ttree_nil_inv in Ht; subst t.
    destruct (notfound_spec a (r_lit st) p c Hd) as [Hat Hni].
    { intros id Hk. apply Hkids in Hk. destruct Hk. }
    rewrite Hat. cbn [fst snd]. fold (grow a p c). unfold ter_push. cbv zeta. cbn [r_fc r_ls r_rs r_lit].
    rewrite asize_app, asize_aset, (to_fc _ _ H). replace (at_size a + 1 - 1) with (at_size a) by lia.
    eexists; split; [reflexivity|]. constructor; cbn [r_fc r_ls r_rs r_lit]; rewrite ?asize_app, ?asize_aset, ?at_size_grow.
    + apply dict_ok_grow; auto. + rewrite (to_fc _ _ H); auto. + rewrite (to_ls _ _ H); auto. + rewrite (to_rs _ _ H); auto.
    + intros q g Hg. destruct (N.eq_dec q (at_size a)) as [->|Hqn].
      { rewrite <- (to_fc _ _ H) in Hg. rewrite <- (asize_aset _ p new) in Hg. rewrite aget_new in Hg.
        apply Some_inj in Hg; subst g. exists BL. split; [constructor|]. split; [auto|constructor]. }
      assert (Hql : q < at_size a). { apply aget_lt in Hg. rewrite asize_app, asize_aset, (to_fc _ _ H) in Hg. lia. }
      rewrite aget_app_lt in Hg by (rewrite asize_aset, (to_fc _ _ H); auto).
      destruct (N.eq_dec q p) as [->|Hqp].
      * rewrite aget_aset_eq in Hg by (rewrite (to_fc _ _ H); auto). apply Some_inj in Hg; subst g.
        exists (BN BL new BL). split; [|split].
        { econstructor; try constructor; [lia| |].
          - rewrite Hnew, <- (to_ls _ _ H). apply aget_new.
          - rewrite Hnew, <- (to_rs _ _ H). apply aget_new. }
        { rewrite Hnew. eapply kids_grow_same; eauto. }
        { econstructor; eauto; try constructor; intros ? []. }
      * rewrite aget_aset_ne in Hg by auto. destruct (to_kids _ _ H q g Hg) as (t' & Ht' & Hk' & Ho').
        exists t'. split; [apply ttree_app; auto|]. split; [apply kids_grow_other; auto|apply tord_app; auto].
  - destruct (ter_search_ok st c new t (S (length (r_fc st))) f Ht) as [(n & E & Hi & Hn)|(s & n & E & Hi & Hn & Hall & Ho')]; auto.
    + intros ->. inversion Ht; congruence.
    + apply Hkids.
    + pose proof (kids_len _ _ _ Hkids). pose proof (to_fc _ _ H) as L. unfold asize in L. lia.
    + rewrite E. cbn [obind]. apply Hkids in Hi.
      rewrite (found_spec _ _ _ _ _ Hd Hi Hn). exists st. split; auto.
    + rewrite E. cbn [obind].
      destruct (notfound_spec a (r_lit st) p c Hd) as [Hat Hni].
      { intros id Hk. apply Hkids in Hk. auto. }
      rewrite Hat. cbn [fst snd]. fold (grow a p c).
      assert (Hnlt : n < at_size a) by (apply Hkids, is_kid_lt in Hi; auto).
      assert (Hkn : is_kid a p n) by (apply Hkids; auto).
      destruct (ttree_insert s (r_ls st) (r_rs st) f t n new) as [HT HP]; auto.
      { apply Hkids. } { rewrite (to_ls _ _ H); auto. } { rewrite (to_ls _ _ H), (to_rs _ _ H); auto. } { lia. }
      assert (Hfin : exists st', ter_push (if s then mk_ter (r_fc st) (aset (r_ls st) n new) (r_rs st) (r_lit st)
                                  else mk_ter (r_fc st) (r_ls st) (aset (r_rs st) n new) (r_lit st)) c
                     = (at_size a, true, st') /\ ter_ok st' (grow a p c)).
      2:{ destruct Hfin as (st' & E2 & Hok). exists st'. split; auto. destruct s; rewrite E2; reflexivity. }
      unfold ter_push. cbv zeta.
      assert (Ef : r_fc (if s then mk_ter (r_fc st) (aset (r_ls st) n new) (r_rs st) (r_lit st)
                          else mk_ter (r_fc st) (r_ls st) (aset (r_rs st) n new) (r_lit st)) = r_fc st) by (destruct s; auto).
      assert (El : r_ls (if s then mk_ter (r_fc st) (aset (r_ls st) n new) (r_rs st) (r_lit st)
                          else mk_ter (r_fc st) (r_ls st) (aset (r_rs st) n new) (r_lit st)) ++ [undef_id]
                   = if s then aset (r_ls st ++ [undef_id]) n new else r_ls st ++ [undef_id]).
      { destruct s; auto. apply aset_app. rewrite (to_ls _ _ H); auto. }
      assert (Er : r_rs (if s then mk_ter (r_fc st) (aset (r_ls st) n new) (r_rs st) (r_lit st)
                          else mk_ter (r_fc st) (r_ls st) (aset (r_rs st) n new) (r_lit st)) ++ [undef_id]
                   = if s then r_rs st ++ [undef_id] else aset (r_rs st ++ [undef_id]) n new).
      { destruct s; auto. apply aset_app. rewrite (to_rs _ _ H); auto. }
      assert (Eli : r_lit (if s then mk_ter (r_fc st) (aset (r_ls st) n new) (r_rs st) (r_lit st)
                          else mk_ter (r_fc st) (r_ls st) (aset (r_rs st) n new) (r_lit st)) = r_lit st) by (destruct s; auto).
      rewrite Ef, El, Er, Eli. cbn [r_fc]. rewrite asize_app, (to_fc _ _ H).
      replace (at_size a + 1 - 1) with (at_size a) by lia.
      eexists; split; [reflexivity|]. constructor; cbn [r_fc r_ls r_rs r_lit].
      * apply dict_ok_grow; auto.
      * rewrite asize_app, at_size_grow, (to_fc _ _ H); auto.
      * destruct s; rewrite ?asize_aset, ?asize_app, at_size_grow, (to_ls _ _ H); auto.
      * destruct s; rewrite ?asize_aset, ?asize_app, at_size_grow, (to_rs _ _ H); auto.
      * intros q g Hg. destruct (N.eq_dec q (at_size a)) as [->|Hqn].
        { rewrite <- (to_fc _ _ H) in Hg. rewrite aget_new in Hg.
          apply Some_inj in Hg; subst g. exists BL. split; [constructor|]. split; [auto|constructor]. }
        assert (Hql : q < at_size a). { apply aget_lt in Hg. rewrite asize_app, (to_fc _ _ H) in Hg. lia. }
        rewrite aget_app_lt in Hg by (rewrite (to_fc _ _ H); auto).
        destruct (N.eq_dec q p) as [->|Hqp].
        { assert (g = f) by congruence. subst g. exists (bins_at s n new t). split; auto. split; auto.
          eapply kids_grow_same; eauto. rewrite <- Hnew. auto. }
        { apply (Hoth _ _ q g n Hkn); auto. destruct s; [right|left]; auto. }
Qed.

Lemma ternary_trie_ok_pf : trie_ok (2 ^ 32 - 1) ternary_trie.
Proof.
  exists ter_ok. repeat split.
  - intros k Hk. eexists; split; [reflexivity|]. apply ter_init_ok; auto.
  - intros st a k _ Hk. eexists; split; [reflexivity|]. apply ter_init_ok; auto.
  - intros st a H. simpl. apply (to_fc _ _ H).
  - intros st a p c H Hp _ Hl. apply ter_find_ok; auto.
Qed.
