(** util/Counter.hpp: what the counter counts, and the order of its listing. *)
From Coq Require Import Permutation Sorted.
From Verif Require Import Base BitIO BitIOProofs IntCodes IntCodesProofs Coders SLE.
Local Open Scope N_scope.

Definition keys (m : counter) : list N := map fst m.

Lemma setCount_keys m x n : forall y, In y (keys (setCount m x n)) <-> y = x \/ In y (keys m).
Proof.
  induction m as [|[z c] m IH]; intros y; cbn [setCount keys map fst In]; [intuition|].
  destruct (N.eqb_spec z x) as [->|Hne]; cbn [keys map fst In]; [intuition|].
  fold (keys (setCount m x n)). fold (keys m). rewrite IH. intuition.
Qed.
Lemma setCount_nodup m x n : NoDup (keys m) -> NoDup (keys (setCount m x n)).
Proof.
  induction m as [|[z c] m IH]; intros H; cbn [setCount keys map fst] in *.
  - constructor; [intros []|constructor].
  - inversion H as [|? ? H1 H2]; subst. destruct (N.eqb_spec z x) as [->|Hne]; cbn [keys map fst].
    + constructor; auto.
    + constructor; [|apply IH; auto]. fold (keys (setCount m x n)). rewrite setCount_keys.
      intros [E|Hi]; [congruence|]. apply H1; auto.
Qed.
Lemma setCount_len m x n : (length (setCount m x n) <= S (length m))%nat.
Proof. induction m as [|[z c] m IH]; cbn; [lia|]. destruct (z =? x); cbn; lia. Qed.
Lemma getCount_set m x n y : getCount (setCount m x n) y = if x =? y then n else getCount m y.
Proof.
  induction m as [|[z c] m IH]; cbn [setCount getCount].
  - reflexivity.
  - destruct (N.eqb_spec z x) as [->|Hne]; cbn [getCount].
    + destruct (N.eqb_spec x y); auto.
    + rewrite IH. destruct (N.eqb_spec z y) as [->|]; auto.
      destruct (N.eqb_spec x y); [congruence|reflexivity].
Qed.
Lemma getCount_in m x c : NoDup (keys m) -> In (x, c) m -> getCount m x = c.
Proof.
  induction m as [|[z d] m IH]; intros H Hi; [destruct Hi|]. cbn [keys map fst] in H. inversion H as [|? ? H1 H2]; subst.
  cbn [getCount]. destruct Hi as [E|Hi].
  - injection E as -> ->. rewrite N.eqb_refl. reflexivity.
  - destruct (N.eqb_spec z x) as [->|]; auto. exfalso. apply H1. apply (in_map fst) in Hi. exact Hi.
Qed.
Lemma getCount_notin m x : ~ In x (keys m) -> getCount m x = 0.
Proof.
  induction m as [|[z d] m IH]; intros H; cbn [getCount keys map fst In] in *; auto.
  destruct (N.eqb_spec z x) as [->|]; [exfalso; auto|]. apply IH. intros Hi. apply H. right. exact Hi.
Qed.
Lemma in_getCount m x : NoDup (keys m) -> In x (keys m) -> In (x, getCount m x) m.
Proof.
  intros H Hi. apply in_map_iff in Hi. destruct Hi as ([z c] & E & Hi). cbn in E. subst z.
  rewrite (getCount_in m x c H Hi). exact Hi.
Qed.

(** the counter after a sequence of increase() calls *)
Definition count_all (l : list N) : counter := fold_left increase l [].
Lemma count_all_ok l : N.of_nat (length l) < 2 ^ 64 ->
  NoDup (keys (count_all l)) /\ (forall x, In x (keys (count_all l)) <-> In x l) /\
  forall x, getCount (count_all l) x = N.of_nat (count_occ N.eq_dec l x).
Proof.
  intros Hl.
  assert (G : forall post pre m, NoDup (keys m) -> (forall x, In x (keys m) <-> In x pre) ->
    (forall x, getCount m x = N.of_nat (count_occ N.eq_dec pre x)) -> N.of_nat (length (pre ++ post)) < 2 ^ 64 ->
    let m' := fold_left increase post m in
    NoDup (keys m') /\ (forall x, In x (keys m') <-> In x (pre ++ post)) /\
    forall x, getCount m' x = N.of_nat (count_occ N.eq_dec (pre ++ post) x)).
  { induction post as [|c post IH]; intros pre m H1 H2 H3 H4; cbn [fold_left].
    - rewrite app_nil_r. auto.
    - assert (E2 : pre ++ c :: post = (pre ++ [c]) ++ post) by (rewrite <- app_assoc; auto).
      rewrite E2 in *. apply IH; auto.
      + apply setCount_nodup; auto.
      + intros x. unfold increase. rewrite setCount_keys, H2, in_app_iff. cbn [In]. intuition.
      + intros x. unfold increase. rewrite getCount_set, count_occ_app, !H3. cbn [count_occ].
        assert (N.of_nat (count_occ N.eq_dec pre c) + 1 < 2 ^ 64).
        { pose proof (count_occ_bound N.eq_dec c pre). rewrite !app_length in H4. cbn [length] in H4. rewrite pow64 in *. lia. }
        destruct (N.eqb_spec c x) as [->|Hne].
        * destruct (N.eq_dec x x); [|congruence]. rewrite w64_small by auto. lia.
        * destruct (N.eq_dec c x); [congruence|]. lia. }
  apply (G l [] []); auto.
  - constructor.
  - cbn. tauto.
Qed.

(** ** getSorted *)
Lemma cnt_insert_perm a l : Permutation (cnt_insert a l) (a :: l).
Proof.
  induction l as [|b l IH]; cbn [cnt_insert]; auto. destruct (cnt_before b a); auto.
  apply perm_trans with (b :: a :: l); [constructor; auto|constructor].
Qed.
Lemma getSorted_perm m : Permutation (getSorted m) m.
Proof.
  induction m as [|a m IH]; cbn [getSorted]; auto.
  apply perm_trans with (a :: getSorted m); [apply cnt_insert_perm|auto].
Qed.
Lemma getSorted_len m : length (getSorted m) = length m.
Proof. apply Permutation_length, getSorted_perm. Qed.

(** the order promised: more often seen first, equal counts by value *)
Definition cnt_le (a b : N * N) : Prop := snd b < snd a \/ (snd a = snd b /\ fst a <= fst b).
Lemma cnt_before_spec a b : cnt_before a b = true <-> snd b < snd a \/ (snd a = snd b /\ fst a < fst b).
Proof.
  unfold cnt_before. destruct (N.eqb_spec (snd a) (snd b)) as [E|E]; cbn [negb].
  - rewrite N.ltb_lt. split; intros; [right; auto|]. destruct H as [H|H]; [lia|tauto].
  - rewrite N.ltb_lt. split; intros; [left; auto|]. destruct H as [H|H]; [auto|tauto].
Qed.
Lemma cnt_le_trans a b c : cnt_le a b -> cnt_le b c -> cnt_le a c.
Proof. unfold cnt_le. lia. Qed.
Lemma cnt_insert_sorted a l : StronglySorted cnt_le l -> StronglySorted cnt_le (cnt_insert a l).
Proof.
  induction l as [|b l IH]; intros H; cbn [cnt_insert].
  - repeat constructor.
  - inversion H as [|? ? H1 H2]; subst. destruct (cnt_before b a) eqn:E.
    + constructor; auto. apply cnt_before_spec in E.
      rewrite Forall_forall in *. intros x Hx. apply (Permutation_in _ (cnt_insert_perm a l)) in Hx.
      destruct Hx as [<-|Hx]; [unfold cnt_le; lia|auto].
    + constructor; auto.
      assert (Hab : cnt_le a b).
      { assert (~ (snd a < snd b \/ (snd b = snd a /\ fst b < fst a))) as Hn.
        { intros Hc. apply cnt_before_spec in Hc. congruence. }
        unfold cnt_le. lia. }
      constructor; auto. rewrite Forall_forall in *. intros x Hx. eapply cnt_le_trans; eauto.
Qed.
Lemma getSorted_sorted m : StronglySorted cnt_le (getSorted m).
Proof. induction m as [|a m IH]; cbn [getSorted]; [constructor|]. apply cnt_insert_sorted; auto. Qed.

(** ** rankings *)
Lemma rank_of_combine l : forall s x r, NoDup l ->
  rank_of (combine l (map N.of_nat (seq s (length l)))) x = Some r <->
  exists i, r = N.of_nat (s + i) /\ nth_error l i = Some x.
Proof.
  induction l as [|y l IH]; intros s x r H; cbn [length seq map combine rank_of].
  - split; [discriminate|]. intros (i & _ & E). destruct i; discriminate.
  - inversion H as [|? ? H1 H2]; subst. destruct (N.eqb_spec y x) as [->|Hne].
    + split.
      * intros E; apply Some_inj in E. subst r. exists 0%nat. rewrite Nat.add_0_r. auto.
      * intros ([|i] & -> & E); [rewrite Nat.add_0_r; auto|]. exfalso. apply H1. cbn in E. eapply nth_error_In; eauto.
    + rewrite IH by auto. split.
      * intros (i & -> & E). exists (S i). split; [f_equal; lia|auto].
      * intros ([|i] & -> & E); [cbn in E; congruence|]. exists i. split; [f_equal; lia|auto].
Qed.
Lemma sorted_keys_nodup m : NoDup (keys m) -> NoDup (map fst (getSorted m)).
Proof. intros H. apply (Permutation_NoDup (l := keys m)); auto. apply Permutation_map, Permutation_sym, getSorted_perm. Qed.
Lemma createRanking_ok m x r : NoDup (keys m) ->
  rank_of (createRanking m) x = Some r <-> nth_error (map fst (getSorted m)) (N.to_nat r) = Some x.
Proof.
  intros H. unfold createRanking. replace (length m) with (length (map fst (getSorted m))).
  2:{ rewrite map_length. apply getSorted_len. }
  rewrite rank_of_combine by (apply sorted_keys_nodup; auto). split.
  - intros (i & -> & E). cbn [Nat.add]. rewrite Nat2N.id. auto.
  - intros E. exists (N.to_nat r). split; auto. cbn. lia.
Qed.
Lemma createRanking_none m x : NoDup (keys m) -> rank_of (createRanking m) x = None <-> ~ In x (keys m).
Proof.
  intros H. split.
  - intros E Hi. assert (Hs : In x (map fst (getSorted m))).
    { eapply Permutation_in; [apply Permutation_map, Permutation_sym, getSorted_perm|exact Hi]. }
    apply In_nth_error in Hs. destruct Hs as (i & Ei).
    assert (rank_of (createRanking m) x = Some (N.of_nat i)) by (apply createRanking_ok; auto; rewrite Nat2N.id; auto).
    congruence.
  - intros Hn. destruct (rank_of (createRanking m) x) as [r|] eqn:E; auto. exfalso. apply Hn.
    apply createRanking_ok in E; auto. apply nth_error_In in E.
    eapply Permutation_in; [apply Permutation_map, getSorted_perm|exact E].
Qed.
