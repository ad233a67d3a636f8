(** Proofs about LZ78 and LZW with rolling-hash tries. *)
From Verif Require Import Base BitIO IntCodes Coders CodersProofs LZ LZProofs Tries RollTrie RollSpec.
Local Open Scope N_scope.

Lemma app1_inj {A} (a b : list A) x y : a ++ [x] = b ++ [y] -> a = b /\ x = y.
Proof. apply app_inj_tail. Qed.

(** *** The map from fingerprints to ids *)
Definition idmap (keys : list N) : list (N * N) :=
  combine keys (map N.of_nat (seq 0 (length keys))).

Lemma idmap_length keys : length (idmap keys) = length keys.
Proof. unfold idmap. rewrite combine_length, map_length, seq_length. lia. Qed.

Lemma combine_app_eq {A B} (a1 a2 : list A) (b1 b2 : list B) : length a1 = length b1 ->
  combine (a1 ++ a2) (b1 ++ b2) = combine a1 b1 ++ combine a2 b2.
Proof.
  revert b1. induction a1 as [|x a1 IH]; intros [|y b1] H; simpl in *; try discriminate; auto.
  rewrite IH by congruence. reflexivity.
Qed.

Lemma idmap_snoc keys k : idmap (keys ++ [k]) = idmap keys ++ [(k, N.of_nat (length keys))].
Proof.
  unfold idmap. rewrite app_length. cbn [length]. rewrite Nat.add_1_r, seq_S, map_app.
  rewrite combine_app_eq by (rewrite map_length, seq_length; reflexivity). reflexivity.
Qed.

Lemma hm_get_app m m' k : hm_get (m ++ m') k =
  match hm_get m k with Some v => Some v | None => hm_get m' k end.
Proof. induction m as [|[k' v] m IH]; simpl; auto. destruct (k' =? k); auto. Qed.

Lemma hm_get_idmap keys k :
  (exists j, (j < length keys)%nat /\ nth_error keys j = Some k /\ hm_get (idmap keys) k = Some (N.of_nat j)) \/
  (~ In k keys /\ hm_get (idmap keys) k = None).
Proof.
  induction keys as [|x keys IH] using rev_ind.
  - right. split; [intros [] | reflexivity].
  - rewrite idmap_snoc, hm_get_app. destruct IH as [(j & Hj & Hn & Hg) | [Hn Hg]]; rewrite Hg.
    + left. exists j. rewrite app_length. split; [simpl; lia|]. split; [|reflexivity].
      rewrite nth_error_app1 by lia. exact Hn.
    + cbn [hm_get]. destruct (N.eqb_spec x k) as [->|Hne].
      * left. exists (length keys). rewrite app_length. split; [simpl; lia|]. split; [|reflexivity].
        rewrite nth_error_app2, Nat.sub_diag by lia. reflexivity.
      * right. split; [|reflexivity]. rewrite in_app_iff. simpl. intuition.
Qed.

(** *** A dictionary of strings and the trie that spells it *)
Record spells (R : nat) (D : list (list N)) (E : list (N * N)) : Prop := mk_spells {
  sp_len : length D = (R + length E)%nat;
  sp_nodup : NoDup D;
  sp_ent : forall k p c, nth_error E k = Some (p, c) ->
     (N.to_nat p < R + k)%nat /\ exists w, nth_error D (N.to_nat p) = Some w /\ nth_error D (R + k) = Some (w ++ [c]);
  sp_root : forall j u w c, (j < R)%nat -> nth_error D j = Some u -> In w D -> u <> w ++ [c];
  sp_rne : (1 <= R)%nat }.

Lemma nth_error_inj {A} (l : list A) i j x : NoDup l -> nth_error l i = Some x -> nth_error l j = Some x -> i = j.
Proof.
  intros Hn Hi Hj. apply (proj1 (NoDup_nth_error l) Hn).
  - apply nth_error_Some. congruence.
  - congruence.
Qed.

Lemma ent_find_none E p c : ent_find E p c = None -> ~ In (p, c) E.
Proof.
  induction E as [|[p' c'] E IH]; simpl; intros H; [tauto|].
  destruct ((p' =? p) && (c' =? c)) eqn:B; [discriminate|].
  destruct (ent_find E p c); [discriminate|]. intros [X|X].
  - inversion X; subst. rewrite !N.eqb_refl in B. discriminate.
  - apply IH; auto.
Qed.

(** The abstract trie answers as the dictionary does. *)
Lemma spells_find R D E node w c : spells R D E -> nth_error D (N.to_nat node) = Some w ->
  (In (w ++ [c]) D ->
     exists j, nth_error D j = Some (w ++ [c]) /\ (R <= j)%nat /\
       at_find (mk_atrie (N.of_nat R) E) node c = (N.of_nat j, false, mk_atrie (N.of_nat R) E)) /\
  (~ In (w ++ [c]) D ->
     at_find (mk_atrie (N.of_nat R) E) node c =
       (N.of_nat (length D), true, mk_atrie (N.of_nat R) (E ++ [(node, c)]))).
Proof.
  intros HS Hw. unfold at_find. cbn [a_ent a_roots].
  assert (Hin : In w D) by (eapply nth_error_In; eauto).
  destruct (ent_find E node c) as [k|] eqn:F.
  - apply ent_find_some in F. destruct (sp_ent _ _ _ HS _ _ _ F) as (Hp & w' & A & B).
    assert (w' = w) by congruence. subst w'. split.
    + intros _. exists (R + k)%nat. split; auto. split; [lia|].
      do 2 f_equal. lia.
    + intros Hni. exfalso. apply Hni. eapply nth_error_In; eauto.
  - split.
    + intros Hi. exfalso. apply In_nth_error in Hi. destruct Hi as (j & Hj).
      assert (Hjl : (j < length D)%nat) by (apply nth_error_Some; congruence).
      rewrite (sp_len _ _ _ HS) in Hjl.
      destruct (Nat.lt_ge_cases j R) as [Hlt|Hge].
      { apply (sp_root _ _ _ HS j _ w c Hlt Hj Hin). reflexivity. }
      destruct (nth_error E (j - R)) as [[p c']|] eqn:EE.
      2:{ apply nth_error_None in EE. lia. }
      destruct (sp_ent _ _ _ HS _ _ _ EE) as (Hp & w' & A & B).
      replace (R + (j - R))%nat with j in B by lia. rewrite Hj in B.
      apply Some_inj, app1_inj in B. destruct B as [-> ->].
      assert (N.to_nat p = N.to_nat node) by (eapply nth_error_inj; eauto using sp_nodup).
      assert (p = node) by lia. subst p.
      apply (ent_find_none _ _ _ F). eapply nth_error_In; eauto.
    + intros _. do 2 f_equal. rewrite (sp_len _ _ _ HS). lia.
Qed.

Lemma NoDup_snoc {A} (l : list A) x : NoDup l -> ~ In x l -> NoDup (l ++ [x]).
Proof.
  intros H1 H2. apply (NoDup_Add (a := x) (l := l)).
  - replace (l ++ [x]) with (l ++ x :: []) by reflexivity.
    pose proof (Add_app x l []) as HA. rewrite app_nil_r in HA. exact HA.
  - split; assumption.
Qed.

Lemma spells_snoc R D E node w c : spells R D E -> nth_error D (N.to_nat node) = Some w ->
  ~ In (w ++ [c]) D ->
  (forall j u, (j < R)%nat -> nth_error D j = Some u -> (length u < length (w ++ [c]) + 1)%nat /\ length u <= 1)%nat ->
  spells R (D ++ [w ++ [c]]) (E ++ [(node, c)]).
Proof.
  intros HS Hw Hni Hr.
  assert (Hnl : (N.to_nat node < length D)%nat) by (apply nth_error_Some; congruence).
  constructor.
  - rewrite !app_length. simpl. rewrite (sp_len _ _ _ HS). lia.
  - apply NoDup_snoc; auto. apply (sp_nodup _ _ _ HS).
  - intros k p c' H. pose proof (sp_len _ _ _ HS) as HL.
    destruct (Nat.lt_ge_cases k (length E)) as [Hk|Hk].
    + rewrite nth_error_app1 in H by lia. destruct (sp_ent _ _ _ HS _ _ _ H) as (A & w' & B & C).
      split; auto. exists w'. rewrite !nth_error_app1 by lia. auto.
    + rewrite nth_error_app2 in H by lia.
      assert (k = length E).
      { destruct (k - length E)%nat as [|z] eqn:Z; [lia|]. destruct z; discriminate. }
      subst k. rewrite Nat.sub_diag in H. apply Some_inj in H. inversion H; subst.
      split; [lia|]. exists w. rewrite nth_error_app1 by lia. split; auto.
      rewrite nth_error_app2 by lia. replace (R + length E - length D)%nat with 0%nat by lia. reflexivity.
  - intros j u w' c' Hj Hu Hin Heq. pose proof (sp_len _ _ _ HS) as HL.
    rewrite nth_error_app1 in Hu by lia. apply in_app_iff in Hin. destruct Hin as [Hin|[<-|[]]].
    + apply (sp_root _ _ _ HS j u w' c' Hj Hu Hin Heq).
    + destruct (Hr j u Hj Hu) as [_ Hl]. subst u. rewrite !app_length in Hl. simpl in Hl. lia.
  - apply (sp_rne _ _ _ HS).
Qed.

Lemma map_nth_error_inv {A B} (f : A -> B) l j y : nth_error (map f l) j = Some y ->
  exists x, nth_error l j = Some x /\ f x = y.
Proof.
  intros H. destruct (nth_error l j) as [x|] eqn:E.
  - exists x. split; auto. rewrite (map_nth_error f _ _ E) in H. congruence.
  - apply nth_error_None in E. rewrite <- (map_length f) in E. apply nth_error_None in E. congruence.
Qed.

(** *** One step of the rolling trie *)
Section Step.
  Variable r : roller.
  Variable K : list N -> N.

  Lemma rt_find_known h m D w c j : m = idmap (map K D) -> rl_key r (rl_add r h c) = K (w ++ [c]) ->
    nth_error D j = Some (w ++ [c]) -> NoDup (map K D) ->
    rt_find r (h, m) c = (N.of_nat j, false, (rl_add r h c, m)).
  Proof.
    intros -> Hk Hj Hn. unfold rt_find, hm_insert. cbn [fst snd]. rewrite Hk.
    destruct (hm_get_idmap (map K D) (K (w ++ [c]))) as [(i & Hi & Hni & Hg)|[Hni Hg]]; rewrite Hg.
    - assert (i = j); [|subst; reflexivity].
      eapply nth_error_inj; [exact Hn|exact Hni|]. apply map_nth_error, Hj.
    - exfalso. apply Hni. apply in_map. eapply nth_error_In; eauto.
  Qed.

  Lemma rt_find_new h m D w c : m = idmap (map K D) -> rl_key r (rl_add r h c) = K (w ++ [c]) ->
    ~ In (K (w ++ [c])) (map K D) -> N.of_nat (length D) < 2 ^ 32 ->
    rt_find r (h, m) c = (N.of_nat (length D), true, (rl_clear r, idmap (map K (D ++ [w ++ [c]])))).
  Proof.
    intros -> Hk Hni Hl. unfold rt_find, hm_insert. cbn [fst snd]. rewrite Hk.
    destruct (hm_get_idmap (map K D) (K (w ++ [c]))) as [(i & Hi & Hn & Hg)|[_ Hg]].
    - exfalso. apply Hni. eapply nth_error_In; eauto.
    - rewrite Hg. rewrite idmap_length, map_length. unfold w32. rewrite N.mod_small by lia.
      rewrite map_app. cbn [map]. rewrite idmap_snoc, map_length. reflexivity.
  Qed.

  Lemma rt_find_coll h m D w c : m = idmap (map K D) -> rl_key r (rl_add r h c) = K (w ++ [c]) ->
    In (K (w ++ [c])) (map K D) ->
    exists j d, nth_error D j = Some d /\ K d = K (w ++ [c]) /\
      rt_find r (h, m) c = (N.of_nat j, false, (rl_add r h c, m)).
  Proof.
    intros -> Hk Hi. unfold rt_find, hm_insert. cbn [fst snd]. rewrite Hk.
    destruct (hm_get_idmap (map K D) (K (w ++ [c]))) as [(i & Hil & Hn & Hg)|[Hni Hg]]; [|tauto].
    rewrite Hg. destruct (map_nth_error_inv _ _ _ _ Hn) as (d & A & B). exists i, d. auto.
  Qed.
End Step.

(** *** LZ78 *)
Section L78.
  Variable r : roller.
  Let K (w : list N) : N := fingerprint r (0 :: w).
  Let S (w : list N) : rl_st r := fold_left (rl_add r) (0 :: w) (rl_clear r).

  Lemma S_snoc w c : rl_add r (S w) c = S (w ++ [c]).
  Proof. unfold S. rewrite app_comm_cons, fold_left_app. reflexivity. Qed.
  Lemma K_S w : rl_key r (S w) = K w.
  Proof. reflexivity. Qed.
  Lemma K_step w c : rl_key r (rl_add r (S w) c) = K (w ++ [c]).
  Proof. rewrite S_snoc. apply K_S. Qed.
  Lemma S_root : rl_add r (rl_clear r) 0 = S [].
  Proof. reflexivity. Qed.

  (** D, E in correspondence, with the empty string as the only root *)
  Definition good (D : list (list N)) (E : list (N * N)) : Prop :=
    spells 1 D E /\ nth_error D 0 = Some [].

  Lemma good_snoc D E node w c : good D E -> nth_error D (N.to_nat node) = Some w ->
    ~ In (w ++ [c]) D -> good (D ++ [w ++ [c]]) (E ++ [(node, c)]).
  Proof.
    intros [HS H0] Hw Hni. split.
    - apply spells_snoc; auto. intros j u Hj Hu. replace j with 0%nat in Hu by lia.
      assert (u = []) by congruence. subst u. simpl. lia.
    - rewrite nth_error_app1; auto. apply nth_error_Some. congruence.
  Qed.

  Lemma lz78_run_dict D w text : exists D', fst (lz78_run D w text) = D ++ D'.
  Proof.
    revert D w. induction text as [|c text IH]; intros D w; cbn [lz78_run].
    - exists []. cbn [fst]. rewrite app_nil_r. reflexivity.
    - destruct (in_dec str_dec (w ++ [c]) D).
      + apply IH.
      + destruct (IH (D ++ [w ++ [c]]) []) as (D' & E). exists ([w ++ [c]] ++ D').
        rewrite E, app_assoc. reflexivity.
  Qed.

  Lemma NoDup_app_l {A} (a b : list A) : NoDup (a ++ b) -> NoDup a.
  Proof.
    induction a as [|x a IH]; simpl; intros H; [constructor|].
    inversion H; subst. constructor; [rewrite in_app_iff in *; tauto|auto].
  Qed.

  Lemma rlz78_loop_ok : forall text D E w node parent fc lastc,
    good D E -> nth_error D (N.to_nat node) = Some w ->
    NoDup (map K (fst (lz78_run D w text))) ->
    N.of_nat (length D + length text) < 2 ^ 32 ->
    Some (rlz78_loop r 0 (S w, idmap (map K D)) node parent fc lastc text) =
    lz78_loop spec_trie 0 (mk_atrie 1 E) node parent fc lastc text.
  Proof.
    induction text as [|c text IH]; intros D E w node parent fc lastc HG Hw Hnd Hl.
    - cbn [rlz78_loop lz78_loop]. destruct (node =? 0); reflexivity.
    - cbn [lz78_run] in Hnd. cbn [rlz78_loop lz78_loop]. cbn [length] in Hl.
      cbn [spec_trie t_find t_root t_size].
      pose proof (spells_find 1 D E node w c (proj1 HG) Hw) as [F1 F2].
      change (N.of_nat 1) with 1 in F1, F2.
      destruct (in_dec str_dec (w ++ [c]) D) as [Hi|Hi].
      + destruct (F1 Hi) as (j & Hj & HRj & Hat). rewrite Hat.
        assert (HN : NoDup (map K D)).
        { destruct (lz78_run_dict D (w ++ [c]) text) as (D' & E'). rewrite E', map_app in Hnd.
          eapply NoDup_app_l; eauto. }
        rewrite (rt_find_known r K _ _ D w c j eq_refl (K_step w c) Hj HN). cbv iota beta.
        rewrite S_snoc. apply IH; auto; try lia. rewrite Nat2N.id. exact Hj.
      + rewrite (F2 Hi).
        destruct (lz78_run_dict (D ++ [w ++ [c]]) [] text) as (D' & E').
        assert (HN : ~ In (K (w ++ [c])) (map K D)).
        { rewrite E', !map_app in Hnd. apply NoDup_app_l in Hnd. cbn [map] in Hnd.
          apply NoDup_remove_2 in Hnd. rewrite app_nil_r in Hnd. exact Hnd. }
        rewrite (rt_find_new r K _ _ D w c eq_refl (K_step w c) HN) by lia.
        cbv iota beta. unfold rt_get_root. cbn [fst snd]. rewrite S_root.
        unfold rt_size, at_size. cbn [snd a_roots a_ent]. rewrite idmap_length, map_length.
        rewrite app_length. cbn [length].
        replace (N.of_nat (length D + 1) =? 0) with false by lia.
        replace (1 + N.of_nat (length (E ++ [(node, c)])) =? 0) with false by lia.
        rewrite <- (IH (D ++ [w ++ [c]]) (E ++ [(node, c)]) [] 0 0 (fc + 1) c); cbn [obind]; auto.
        * apply good_snoc; auto.
        * change (N.to_nat 0) with 0%nat. pose proof (proj2 HG) as H00.
          rewrite nth_error_app1; [exact H00|]. apply nth_error_Some. rewrite H00. discriminate.
        * rewrite app_length. cbn [length]. lia.
  Qed.

  Lemma good_init : good [[]] [].
  Proof.
    split; [|reflexivity]. constructor; auto.
    - constructor; [intros []|constructor].
    - intros k p c H. destruct k; discriminate.
    - intros j u w c Hj Hu Hin Heq. replace j with 0%nat in Hu by lia. apply Some_inj in Hu. subst u.
      destruct w; discriminate.
  Qed.

  Lemma rt_init_1 : rt_get_root r (rt_init r 1) 0 = (0, (S [], idmap (map K [[]]))).
  Proof. reflexivity. Qed.

  Lemma rlz78_calls_ok text : NoDup (map K (lz78_dict text)) -> N.of_nat (length text) + 1 < 2 ^ 32 ->
    lz78_calls spec_trie 0 text = Some (rlz78_calls r 0 text).
  Proof.
    intros Hn Hl. unfold lz78_calls, rlz78_calls. rewrite rt_init_1. cbv iota beta.
    cbn [spec_trie t_init t_root obind]. symmetry. apply rlz78_loop_ok; auto using good_init.
    cbn [length]. lia.
  Qed.
End L78.
