(** Huffman: the canonical code computed from the codeword lengths. *)
From Coq Require Import Permutation Sorted.
From Verif Require Import Base BitIO IntCodes IntCodesProofs Coders Huffman HuffmanSpec HuffTreeProofs.
Local Open Scope N_scope.

Definition cnt (ls : list nat) (l : nat) : nat := count_occ Nat.eq_dec ls l.

(** ** numl *)
(** Kraft sum in terms of numl *)
Fixpoint ksum (numl : list N) : N :=
  match numl with [] => 0 | x :: r => x * 2 ^ N.of_nat (length r) + ksum r end.
Lemma ksum_upd numl : forall i x, nth_error numl i = Some x ->
  ksum (upd numl i (x + 1)) = ksum numl + 2 ^ N.of_nat (length numl - S i).
Proof.
  induction numl as [|y r IH]; intros [|i] x E; cbn [nth_error] in E; try discriminate.
  - apply Some_inj in E. subst y. cbn [upd ksum length]. rewrite Nat.sub_succ, Nat.sub_0_r. lia.
  - cbn [upd ksum length]. rewrite upd_length, IH by auto. rewrite Nat.sub_succ. lia.
Qed.
Lemma ksum_repeat0 n : ksum (repeat 0 n) = 0.
Proof. induction n; cbn; lia. Qed.

Definition numl_step := fun (o : option (list N)) l =>
    do numl <- o;
    match l with
    | O => None
    | S l' => do x <- nth_error numl l'; hset numl l' (w8 (x + 1))
    end.
Lemma gen_numl_loop L lens : forall pre numl,
  Forall (fun l => 1 <= l <= L)%nat lens -> (length pre + length lens <= 255)%nat ->
  length numl = L ->
  (forall i, (i < L)%nat -> nth i numl 0 = N.of_nat (cnt pre (S i))) -> ksum numl = kraft L pre ->
  exists numl', fold_left numl_step lens (Some numl) = Some numl' /\ length numl' = L /\
  (forall i, (i < L)%nat -> nth i numl' 0 = N.of_nat (cnt (pre ++ lens) (S i))) /\ ksum numl' = kraft L (pre ++ lens).
Proof.
  induction lens as [|l lens IH]; intros pre numl Hf Hl Hn Hc Hk; cbn [fold_left].
  - rewrite app_nil_r. eauto.
  - inversion Hf as [|? ? H1 H2]; subst. cbn [length] in Hl.
    unfold numl_step at 2. cbn [obind]. destruct l as [|l]; [lia|].
    rewrite (nth_error_nth' numl 0) by lia. cbn [obind]. rewrite hset_some by lia.
    assert (Hb : (cnt pre (S l) <= length pre)%nat).
    { unfold cnt. clear. induction pre; cbn; [lia|]. destruct (Nat.eq_dec a (S l)); lia. }
    assert (Ew : w8 (nth l numl 0 + 1) = nth l numl 0 + 1).
    { unfold w8. apply N.mod_small. rewrite Hc by lia. lia. }
    rewrite Ew.
    assert (Ecnt : forall x, cnt (pre ++ [S l]) x = (cnt pre x + if Nat.eq_dec (S l) x then 1 else 0)%nat).
    { intros x. unfold cnt. rewrite count_occ_app. cbn [count_occ]. destruct (Nat.eq_dec (S l) x); auto. }
    destruct (IH (pre ++ [S l]) (upd numl l (nth l numl 0 + 1))) as (numl' & E1 & E2 & E3 & E4); auto.
    + rewrite app_length. cbn. lia.
    + apply upd_length.
    + intros i Hi. rewrite Ecnt. destruct (Nat.eq_dec (S l) (S i)) as [E|E].
      * injection E as <-. rewrite nth_upd_eq by lia. rewrite Hc by lia. lia.
      * rewrite nth_upd_ne by lia. rewrite Hc by lia. f_equal. lia.
    + rewrite (ksum_upd _ _ (nth l numl 0)) by (apply nth_error_nth'; lia).
      rewrite kraft_app, Hk. cbn [kraft fold_right]. lia.
    + rewrite <- app_assoc in E3, E4. cbn [app] in E3, E4. exists numl'. auto.
Qed.
Lemma gen_numl_ok L lens : Forall (fun l => 1 <= l <= L)%nat lens -> (length lens <= 255)%nat ->
  exists numl, gen_numl lens L = Some numl /\ length numl = L /\
  (forall i, (i < L)%nat -> nth i numl 0 = N.of_nat (cnt lens (S i))) /\ ksum numl = kraft L lens.
Proof.
  intros H1 H2. destruct (gen_numl_loop L lens [] (repeat 0 L)) as (numl & E); auto.
  - apply repeat_length.
  - intros i Hi. rewrite nth_repeat. reflexivity.
  - apply ksum_repeat0.
  - exists numl. exact E.
Qed.

(** ** first codes *)
Fixpoint levels (g0 : N) (numl : list N) : list N :=
  match numl with [] => [] | x :: r => (2 * g0 - x) :: levels (2 * g0 - x) r end.
Fixpoint chain (g0 : N) (numl : list N) : Prop :=
  match numl with [] => g0 = 0 | x :: r => x <= 2 * g0 /\ chain (2 * g0 - x) r end.
Lemma kraft_chain numl : forall g0, ksum numl = g0 * 2 ^ N.of_nat (length numl) -> chain g0 numl.
Proof.
  induction numl as [|x r IH]; intros g0 H; cbn [ksum chain length] in *.
  - change (2 ^ N.of_nat 0) with 1 in H. lia.
  - rewrite pow_S in H. set (p := 2 ^ N.of_nat (length r)) in *.
    assert (p <> 0) by (apply N.pow_nonzero; lia).
    assert (Hx : x <= 2 * g0).
    { destruct (N.le_gt_cases x (2 * g0)); auto. exfalso. assert ((2 * g0 + 1) * p <= x * p) by (apply N.mul_le_mono_r; lia). lia. }
    split; auto. apply IH. fold p. rewrite N.mul_sub_distr_r. lia.
Qed.
Lemma first_codes_levels numl : forall g0, numl <> [] -> chain g0 numl -> g0 * 2 ^ N.of_nat (length numl) < 2 ^ 64 ->
  first_codes numl = levels g0 numl.
Proof.
  induction numl as [|x r IH]; intros g0 Hne Hc Hb; [congruence|].
  cbn [chain] in Hc. destruct Hc as [Hx Hc].
  destruct r as [|y r].
  - cbn [chain] in Hc. cbn [first_codes levels]. f_equal. lia.
  - change (first_codes (x :: y :: r)) with (w64 (nth 0 (first_codes (y :: r)) 0 + y) / 2 :: first_codes (y :: r)).
    change (length (x :: y :: r)) with (S (length (y :: r))) in Hb. rewrite pow_S in Hb.
    assert (Hb' : (2 * g0 - x) * 2 ^ N.of_nat (length (y :: r)) < 2 ^ 64).
    { eapply N.le_lt_trans; [|exact Hb].
      rewrite (N.mul_comm 2 (2 ^ _)), N.mul_assoc, (N.mul_comm (g0 * _) 2), N.mul_assoc.
      apply N.mul_le_mono_r. lia. }
    rewrite (IH (2 * g0 - x)) by (auto; discriminate).
    cbn [chain] in Hc. destruct Hc as [Hy Hc].
    cbn [levels nth]. f_equal.
    replace (2 * (2 * g0 - x) - y + y) with (2 * (2 * g0 - x)) by lia.
    unfold w64. rewrite N.mod_small.
    + rewrite N.mul_comm. apply N.div_mul. lia.
    + cbn [length] in Hb'. rewrite pow_S in Hb'.
      assert (1 <= 2 ^ N.of_nat (length r)) by (apply N.lt_pred_le, N.neq_0_lt_0, N.pow_nonzero; lia).
      nia.
Qed.
Lemma levels_length g0 numl : length (levels g0 numl) = length numl.
Proof. revert g0; induction numl; intros; cbn; auto. Qed.
(** consecutive levels *)
Lemma levels_0 g0 numl : chain g0 numl -> numl <> [] -> nth 0 (levels g0 numl) 0 + nth 0 numl 0 = 2 * g0.
Proof. destruct numl; [congruence|]. cbn. intros [H _] _. lia. Qed.
Lemma levels_S i : forall g0 numl, chain g0 numl -> (S i < length numl)%nat ->
  nth (S i) (levels g0 numl) 0 + nth (S i) numl 0 = 2 * nth i (levels g0 numl) 0.
Proof.
  induction i as [|i IH]; intros g0 numl Hc Hi; destruct numl as [|x r]; cbn [length] in Hi; try lia.
  - cbn [chain] in Hc. destruct Hc as [Hx Hc]. change (nth 1 (levels g0 (x :: r)) 0) with (nth 0 (levels (2 * g0 - x) r) 0).
    change (nth 1 (x :: r) 0) with (nth 0 r 0). change (nth 0 (levels g0 (x :: r)) 0) with (2 * g0 - x).
    apply levels_0; auto. destruct r; cbn in Hi; [lia|discriminate].
  - cbn [chain] in Hc. destruct Hc as [Hx Hc].
    change (nth (S (S i)) (levels g0 (x :: r)) 0) with (nth (S i) (levels (2 * g0 - x) r) 0).
    change (nth (S (S i)) (x :: r) 0) with (nth (S i) r 0).
    change (nth (S i) (levels g0 (x :: r)) 0) with (nth i (levels (2 * g0 - x) r) 0).
    apply IH; auto. lia.
Qed.
Lemma levels_bound numl i : chain 1 numl -> (i < length numl)%nat ->
  nth i (levels 1 numl) 0 + nth i numl 0 <= 2 ^ N.of_nat (S i).
Proof.
  intros Hc. induction i as [|i IH]; intros Hi.
  - rewrite levels_0; auto. { reflexivity. } destruct numl; cbn in Hi; [lia|discriminate].
  - rewrite levels_S by auto. specialize (IH ltac:(lia)). rewrite pow_S. lia.
Qed.

(** ** codewords *)
Lemma codewords_ok lens : forall fc, Forall (fun l => 1 <= l <= length fc)%nat lens ->
  (forall l, (l < length fc)%nat -> nth l fc 0 + N.of_nat (length lens) < 2 ^ 64) ->
  exists cw, codewords_loop fc lens = Some cw /\ length cw = length lens /\
    forall i, (i < length lens)%nat ->
      nth i cw 0 = nth (nth i lens 0%nat - 1) fc 0 + N.of_nat (cnt (firstn i lens) (nth i lens 0%nat)).
Proof.
  induction lens as [|l lens IH]; intros fc Hf Hb; cbn [codewords_loop].
  - exists []. split; auto. split; auto. cbn; lia.
  - inversion Hf as [|? ? H1 H2]; subst. destruct l as [|l]; [lia|].
    rewrite (nth_error_nth' fc 0) by lia. cbn [obind].
    assert (Ew : w64 (nth l fc 0 + 1) = nth l fc 0 + 1).
    { unfold w64. apply N.mod_small. specialize (Hb l ltac:(lia)). cbn [length] in Hb. lia. }
    rewrite Ew.
    destruct (IH (upd fc l (nth l fc 0 + 1))) as (cw & E1 & E2 & E3).
    { rewrite upd_length; auto. }
    { rewrite upd_length. intros j Hj. specialize (Hb j Hj). cbn [length] in Hb.
      destruct (Nat.eq_dec j l) as [->|]; [rewrite nth_upd_eq by lia|rewrite nth_upd_ne by lia]; lia. }
    rewrite E1. cbn [obind]. eexists; split; [reflexivity|]. split; [cbn; auto|].
    intros [|i] Hi; cbn [nth firstn cnt length] in *.
    + cbn [count_occ]. rewrite Nat.sub_succ, Nat.sub_0_r. change (cnt [] (S l)) with 0%nat. lia.
    + rewrite E3 by lia. unfold cnt. cbn [count_occ].
      assert (Hin : (1 <= nth i lens 0 <= length fc)%nat).
      { rewrite Forall_forall in H2. apply H2. apply nth_In. lia. }
      destruct (Nat.eq_dec (S l) (nth i lens 0%nat)) as [E|E].
      * rewrite <- E. rewrite Nat.sub_succ, Nat.sub_0_r. rewrite nth_upd_eq by lia. lia.
      * rewrite nth_upd_ne by lia. reflexivity.
Qed.

(** ** sorted lengths are determined by their counts *)
Lemma sorted_perm_eq a : forall b, StronglySorted le a -> StronglySorted le b -> Permutation a b -> a = b.
Proof.
  induction a as [|x a IH]; intros b Ha Hb P.
  - apply Permutation_nil in P. auto.
  - destruct b as [|y b]; [apply Permutation_sym, Permutation_nil in P; discriminate|].
    inversion Ha as [|? ? Sa Fa]; subst. inversion Hb as [|? ? Sb Fb]; subst.
    assert (x = y).
    { assert (In x (y :: b)) by (eapply Permutation_in; [exact P|left; auto]).
      assert (In y (x :: a)) by (eapply Permutation_in; [apply Permutation_sym, P|left; auto]).
      rewrite Forall_forall in Fa, Fb.
      destruct H as [->|H]; auto. destruct H0 as [->|H0]; auto. apply Fa in H0. apply Fb in H. lia. }
    subst y. f_equal. apply IH; auto. eapply Permutation_cons_inv; eauto.
Qed.
Definition ocl (s : nat) (numl : list N) : list nat :=
  flat_map (fun p => repeat (fst p + 1)%nat (N.to_nat (snd p))) (combine (seq s (length numl)) numl).
Lemma cnt_repeat a k x : cnt (repeat a k) x = if Nat.eq_dec a x then k else 0%nat.
Proof.
  unfold cnt. induction k as [|k IH]; cbn [repeat count_occ]; [destruct (Nat.eq_dec a x); auto|].
  rewrite IH. destruct (Nat.eq_dec a x); auto.
Qed.
Lemma ocl_ge numl : forall s x, In x (ocl s numl) -> (s < x <= s + length numl)%nat.
Proof.
  unfold ocl. induction numl as [|y r IH]; intros s x; cbn [length seq combine flat_map fst snd]; [cbn; tauto|].
  intros H. apply in_app_or in H. destruct H as [H|H].
  - apply repeat_spec in H. lia.
  - apply IH in H. lia.
Qed.
Lemma ocl_cnt numl : forall s x, cnt (ocl s numl) (s + S x) = N.to_nat (nth x numl 0).
Proof.
  induction numl as [|y r IH]; intros s x.
  - cbn. destruct x; auto.
  - change (ocl s (y :: r)) with (repeat (s + 1)%nat (N.to_nat y) ++ ocl (S s) r).
    unfold cnt. rewrite count_occ_app. fold (cnt (repeat (s + 1)%nat (N.to_nat y)) (s + S x)).
    fold (cnt (ocl (S s) r) (s + S x)). rewrite cnt_repeat. destruct x as [|x]; cbn [nth].
    + destruct (Nat.eq_dec (s + 1) (s + 1)); [|lia].
      enough (cnt (ocl (S s) r) (s + 1) = 0%nat) by lia.
      apply count_occ_not_In. intros H. apply ocl_ge in H. lia.
    + destruct (Nat.eq_dec (s + 1) (s + S (S x))); [lia|].
      replace (s + S (S x))%nat with (S s + S x)%nat by lia. rewrite IH. lia.
Qed.
Lemma ocl_sorted numl : forall s, StronglySorted le (ocl s numl).
Proof.
  induction numl as [|y r IH]; intros s; [constructor|].
  change (ocl s (y :: r)) with (repeat (s + 1)%nat (N.to_nat y) ++ ocl (S s) r).
  induction (N.to_nat y) as [|k IHk]; cbn [repeat app]; [apply IH|].
  constructor; auto. apply Forall_forall. intros x Hx. apply in_app_or in Hx. destruct Hx as [Hx|Hx].
  - apply repeat_spec in Hx. lia.
  - apply ocl_ge in Hx. lia.
Qed.
Lemma ocl_lens L lens numl : StronglySorted le lens -> Forall (fun l => 1 <= l <= L)%nat lens -> length numl = L ->
  (forall i, (i < L)%nat -> nth i numl 0 = N.of_nat (cnt lens (S i))) -> ordered_codelengths numl = lens.
Proof.
  intros Hs Hf Hl Hc. change (ordered_codelengths numl) with (ocl 0 numl).
  apply sorted_perm_eq; auto using ocl_sorted. apply (Permutation_count_occ Nat.eq_dec). intros x.
  change (cnt (ocl 0 numl) x = cnt lens x).
  destruct x as [|x].
  - transitivity 0%nat; [|symmetry]; apply count_occ_not_In; intros H.
    + apply ocl_ge in H. lia.
    + rewrite Forall_forall in Hf. apply Hf in H. lia.
  - change (S x) with (0 + S x)%nat at 1. rewrite (ocl_cnt numl 0 x). destruct (Nat.lt_ge_cases x L) as [H|H].
    + rewrite Hc by auto. lia.
    + rewrite nth_overflow by lia. symmetry. apply count_occ_not_In. intros H'.
      rewrite Forall_forall in Hf. apply Hf in H'. lia.
Qed.

(** ** prefix sums *)
Definition less (ls : list nat) (l : nat) : nat := length (filter (fun x => x <? l)%nat ls).
Lemma less_app a b l : less (a ++ b) l = (less a l + less b l)%nat.
Proof. unfold less. rewrite filter_app, app_length. auto. Qed.
Lemma less_ge b l : Forall (fun x => l <= x)%nat b -> less b l = 0%nat.
Proof.
  unfold less. induction 1 as [|x b H Hb IH]; cbn [filter]; auto. destruct (Nat.ltb_spec x l); [lia|exact IH].
Qed.
Lemma less_all a l : Forall (fun x => x < l)%nat a -> less a l = length a.
Proof.
  unfold less. induction 1 as [|x a H Ha IH]; cbn [filter]; auto. destruct (Nat.ltb_spec x l); [|lia].
  cbn [length]. auto.
Qed.
Lemma sorted_split (a b : list nat) : StronglySorted le (a ++ b) -> forall x y, In x a -> In y b -> (x <= y)%nat.
Proof.
  induction a as [|z a IH]; cbn; [tauto|]. intros H x y [->|Hx] Hy; inversion H as [|? ? S1 F1]; subst.
  - rewrite Forall_forall in F1. apply F1. apply in_or_app; auto.
  - apply IH; auto.
Qed.
Lemma psl_loop_ok L rest : forall pre prev psl,
  StronglySorted le (pre ++ [prev] ++ rest) -> Forall (fun l => 1 <= l <= L)%nat (pre ++ [prev] ++ rest) ->
  length psl = L ->
  (forall l, In l (pre ++ [prev]) -> nth_error psl (l - 1) = Some (Some (less (pre ++ [prev]) l))) ->
  exists psl', psl_loop (length pre + 1) prev rest psl = Some psl' /\ length psl' = L /\
  (forall l, In l (pre ++ [prev] ++ rest) -> nth_error psl' (l - 1) = Some (Some (less (pre ++ [prev] ++ rest) l))).
Proof.
  induction rest as [|l rest IH]; intros pre prev psl Hs Hf Hl Hp; cbn [psl_loop].
  - rewrite app_nil_r. eauto.
  - assert (Hl1 : (1 <= l <= L)%nat).
    { rewrite Forall_forall in Hf. apply Hf. apply in_or_app; right; right; left; auto. }
    assert (Hpl : (prev <= l)%nat).
    { replace (pre ++ [prev] ++ l :: rest) with ((pre ++ [prev]) ++ l :: rest) in Hs by (rewrite <- app_assoc; auto).
      eapply (sorted_split _ _ Hs prev l); [apply in_or_app; right; left; auto|left; auto]. }
    assert (Hge : forall x, In x (pre ++ [prev]) -> (x <= prev)%nat).
    { intros x Hx. apply in_app_or in Hx. destruct Hx as [Hx|[->|[]]]; [|lia].
      eapply (sorted_split _ _ Hs x prev); auto. left; auto. }
    assert (G : exists psl1, (if (prev <? l)%nat then match l with O => None | S l' => hset psl l' (Some (length pre + 1)%nat) end else Some psl) = Some psl1
       /\ length psl1 = L /\ forall x, In x ((pre ++ [prev]) ++ [l]) -> nth_error psl1 (x - 1) = Some (Some (less ((pre ++ [prev]) ++ [l]) x))).
    { destruct (Nat.ltb_spec prev l) as [Hlt|Hge'].
      - destruct l as [|l]; [lia|]. rewrite hset_some by lia. eexists. split; [reflexivity|].
        rewrite upd_length. split; auto. intros x Hx. apply in_app_or in Hx. destruct Hx as [Hx|[<-|[]]].
        + rewrite nth_error_upd_ne.
          * rewrite Hp by auto. do 2 f_equal. rewrite (less_app (pre ++ [prev])).
            rewrite (less_ge [S l]); [lia|]. constructor; [|constructor]. specialize (Hge x Hx). lia.
          * specialize (Hge x Hx).
            assert (1 <= x <= L)%nat.
            { rewrite Forall_forall in Hf. apply Hf. apply in_app_or in Hx. apply in_or_app. destruct Hx as [Hx|[->|[]]]; [auto|right; left; auto]. }
            lia.
        + rewrite Nat.sub_succ, Nat.sub_0_r. rewrite nth_error_upd_eq by lia. do 2 f_equal.
          rewrite (less_app (pre ++ [prev])). rewrite (less_ge [S l]) by (constructor; [lia|constructor]).
          rewrite less_all; [rewrite app_length; cbn; lia|].
          apply Forall_forall. intros x Hx. specialize (Hge x Hx). lia.
      - assert (prev = l) by lia. subst prev. exists psl. split; auto. split; auto.
        intros x Hx. assert (Hx' : In x (pre ++ [l])) by (apply in_app_or in Hx; destruct Hx as [Hx|[<-|[]]]; auto; apply in_or_app; right; left; auto).
        rewrite Hp by auto. do 2 f_equal. rewrite (less_app (pre ++ [l])).
        rewrite (less_ge [l]); [lia|]. constructor; [|constructor]. apply Hge; auto. }
    destruct G as (psl1 & -> & E2 & E3). cbn [obind].
    assert (EE : pre ++ [prev] ++ l :: rest = (pre ++ [prev]) ++ [l] ++ rest) by (rewrite <- app_assoc; auto).
    rewrite EE in *.
    destruct (IH (pre ++ [prev]) l psl1) as (psl' & E4 & E5 & E6); auto.
    rewrite app_length in E4. cbn [length] in E4. eauto.
Qed.
Lemma prefix_sums_ok L lens : lens <> [] -> StronglySorted le lens -> Forall (fun l => 1 <= l <= L)%nat lens ->
  exists psl, gen_prefix_sum_lengths lens L = Some psl /\ length psl = L /\
   forall l, In l lens -> nth_error psl (l - 1) = Some (Some (less lens l)).
Proof.
  intros Hne Hs Hf. destruct lens as [|l lens]; [congruence|].
  unfold gen_prefix_sum_lengths. inversion Hf as [|? ? H1 H2]; subst. destruct l as [|l]; [lia|].
  rewrite hset_some by (rewrite repeat_length; lia). cbn [obind].
  apply (psl_loop_ok L lens []); auto.
  - rewrite upd_length, repeat_length. auto.
  - intros x [<-|[]]. cbn [app]. rewrite Nat.sub_succ, Nat.sub_0_r. rewrite nth_error_upd_eq by (rewrite repeat_length; lia).
    do 2 f_equal. unfold less. cbn [filter]. rewrite Nat.ltb_irrefl. reflexivity.
Qed.

(** position of an entry in the sorted list *)
Lemma sorted_pos lens : StronglySorted le lens -> forall i, (i < length lens)%nat ->
  (less lens (nth i lens 0) + cnt (firstn i lens) (nth i lens 0) = i)%nat.
Proof.
  intros Hs i Hi. set (l := nth i lens 0%nat).
  assert (E : lens = firstn i lens ++ l :: skipn (S i) lens).
  { unfold l. rewrite <- (skipn_cons_nth lens i 0%nat) by auto. symmetry. apply firstn_skipn. }
  rewrite E at 1. rewrite less_app. rewrite E in Hs.
  rewrite (less_ge (l :: _)).
  2:{ constructor; [lia|]. apply Forall_forall. intros x Hx.
      assert (S2 : StronglySorted le ((firstn i lens ++ [l]) ++ skipn (S i) lens)) by (rewrite <- app_assoc; auto).
      eapply (sorted_split _ _ S2 l x); auto. apply in_or_app; right; left; auto. }
  assert (Hle : forall x, In x (firstn i lens) -> (x <= l)%nat).
  { intros x Hx. eapply (sorted_split _ _ Hs x l); auto. left; auto. }
  assert (Hlen : length (firstn i lens) = i) by (rewrite firstn_length; lia).
  rewrite <- Hlen at 3. clear - Hle. induction (firstn i lens) as [|x r IH]; [reflexivity|].
  assert (IH' := IH (fun y Hy => Hle y (or_intror Hy))). specialize (Hle x (or_introl eq_refl)).
  unfold less, cnt in *. cbn [filter count_occ length]. destruct (Nat.ltb_spec x l), (Nat.eq_dec x l); cbn [length]; lia.
Qed.

(** ** decoding one codeword *)
Lemma div_pow_S c k : c / 2 ^ N.of_nat k = 2 * (c / 2 ^ N.of_nat (S k)) + N.b2n (N.testbit c (N.of_nat k)).
Proof.
  rewrite pow_S. rewrite (N.mul_comm 2 (2 ^ N.of_nat k)). rewrite <- N.div_div by (try apply N.pow_nonzero; lia).
  set (q := c / 2 ^ N.of_nat k).
  rewrite N.testbit_spec'. fold q. apply N.div_mod. lia.
Qed.
Lemma decode_loop_ok fcs c l : (l <= length fcs)%nat -> c < 2 ^ 64 ->
  (forall j, (1 <= j < l)%nat -> c / 2 ^ N.of_nat (l - j) < nth (j - 1) fcs 0) ->
  nth (l - 1) fcs 0 <= c ->
  forall k m fuel rest, (m + k = l)%nat -> (1 <= k)%nat -> (k <= fuel)%nat ->
  huffman_decode_loop lrb fcs fuel (c / 2 ^ N.of_nat k) m (write_int c k ++ rest) = Some (c, (l - 1)%nat, rest).
Proof.
  intros Hl Hc Hj Hge. induction k as [|k IH]; intros m fuel rest Hm Hk Hfu; [lia|].
  destruct fuel as [|fuel]; [lia|]. cbn [huffman_decode_loop write_int app lrb].
  rewrite <- div_pow_S.
  assert (Ew : w64 (c / 2 ^ N.of_nat k) = c / 2 ^ N.of_nat k).
  { unfold w64. apply N.mod_small. eapply N.le_lt_trans; [|exact Hc].
    apply N.div_le_upper_bound; [apply N.pow_nonzero; lia|].
    rewrite <- (N.mul_1_l c) at 1. apply N.mul_le_mono_r.
    apply N.lt_pred_le, N.neq_0_lt_0, N.pow_nonzero; lia. }
  rewrite Ew. rewrite (nth_error_nth' fcs 0) by lia. cbn [obind].
  destruct k as [|k].
  - change (2 ^ N.of_nat 0) with 1. rewrite N.div_1_r.
    replace m with (l - 1)%nat by lia.
    destruct (N.ltb_spec c (nth (l - 1) fcs 0)); [lia|]. reflexivity.
  - specialize (Hj (m + 1)%nat ltac:(lia)) as Q.
    replace (l - (m + 1))%nat with (S k) in Q by lia. replace (m + 1 - 1)%nat with m in Q by lia.
    destruct (N.ltb_spec (c / 2 ^ N.of_nat (S k)) (nth m fcs 0)); [|lia].
    apply IH; lia.
Qed.

(** ** the whole code *)
Section Code.
  Variables (lens : list nat) (L : nat).
  Hypothesis (Hne : lens <> []) (Hs : StronglySorted le lens) (Hf : Forall (fun l => 1 <= l <= L)%nat lens).
  Hypothesis (HL : (L <= 62)%nat) (Hn : (length lens <= 255)%nat).
  Hypothesis (HK : kraft L lens = 2 ^ N.of_nat L).

  Lemma L_pos : (1 <= L)%nat.
  Proof. destruct lens as [|l r]; [congruence|]. inversion Hf; lia. Qed.
  Lemma pow_le_64 : 2 ^ N.of_nat L <= 2 ^ 62.
  Proof. apply N.pow_le_mono_r; lia. Qed.

  Lemma code_ok : exists numl cw psl,
    gen_numl lens L = Some numl /\ length numl = L /\ Forall (fun x => x < 256) numl /\
    gen_codewords lens numl = Some cw /\ length cw = length lens /\
    gen_ordered_codelength (length lens) numl = Some lens /\
    gen_prefix_sum_lengths lens L = Some psl /\
    gen_first_codes numl = Some (first_codes numl) /\
    forall (omap : list N) i rest, length omap = length lens -> (i < length lens)%nat ->
      huffman_decode lrb omap psl (first_codes numl) (write_int (nth i cw 0) (nth i lens 0%nat) ++ rest)
      = Some (nth i omap 0, rest).
  Proof.
    pose proof L_pos as HL1. pose proof pow_le_64 as HP.
    destruct (gen_numl_ok L lens Hf Hn) as (numl & E1 & E2 & E3 & E4).
    assert (Hnn : numl <> []) by (destruct numl; cbn in E2; [lia|discriminate]).
    assert (Hch : chain 1 numl) by (apply kraft_chain; rewrite E4, HK, E2; lia).
    assert (Hfc : first_codes numl = levels 1 numl).
    { apply first_codes_levels; auto. rewrite E2. assert (2 ^ 62 < 2 ^ 64) by reflexivity. lia. }
    assert (Hgf : gen_first_codes numl = Some (first_codes numl)) by (destruct numl; [congruence|reflexivity]).
    assert (Hlv : length (first_codes numl) = L) by (rewrite Hfc, levels_length; auto).
    assert (Hbd : forall i, (i < L)%nat -> nth i (first_codes numl) 0 + nth i numl 0 <= 2 ^ N.of_nat (S i)).
    { intros i Hi. rewrite Hfc. apply levels_bound; auto; lia. }
    assert (Hp62 : forall i, (i <= L)%nat -> 2 ^ N.of_nat i <= 2 ^ 62) by (intros; apply N.pow_le_mono_r; lia).
    destruct (codewords_ok lens (first_codes numl)) as (cw & C1 & C2 & C3).
    { rewrite Hlv. auto. }
    { intros l Hl. rewrite Hlv in Hl. specialize (Hbd l Hl). specialize (Hp62 (S l) ltac:(lia)).
      assert (2 ^ 62 + 255 < 2 ^ 64) by reflexivity. lia. }
    destruct (prefix_sums_ok L lens Hne Hs Hf) as (psl & P1 & P2 & P3).
    exists numl, cw, psl. split; auto. split; auto. split.
    { apply Forall_forall. intros x Hx. apply (In_nth _ _ 0) in Hx. destruct Hx as (i & Hi & <-).
      rewrite E3 by lia. unfold cnt. assert (Hb : forall l x, (count_occ Nat.eq_dec l x <= length l)%nat).
      { clear. induction l; cbn; intros; [lia|]. destruct (Nat.eq_dec a x); specialize (IHl x); lia. }
      specialize (Hb lens (S i)). lia. }
    split. { unfold gen_codewords. rewrite Hgf. cbn [obind]. auto. }
    split; auto. split.
    { unfold gen_ordered_codelength. rewrite (ocl_lens L lens) by auto. rewrite Nat.eqb_refl. auto. }
    split; auto. split; auto.
    intros omap i rest Ho Hi.
    set (l := nth i lens 0%nat). set (c := nth i cw 0).
    assert (Hl : (1 <= l <= L)%nat) by (rewrite Forall_forall in Hf; apply Hf, nth_In; auto).
    assert (Ec : c = nth (l - 1) (first_codes numl) 0 + N.of_nat (cnt (firstn i lens) l)) by (apply C3; auto).
    assert (Hcl : (cnt (firstn i lens) l < cnt lens l)%nat).
    { assert (E : lens = firstn i lens ++ l :: skipn (S i) lens).
      { unfold l. rewrite <- (skipn_cons_nth lens i 0%nat) by auto. symmetry. apply firstn_skipn. }
      rewrite E at 2. unfold cnt. rewrite count_occ_app. cbn [count_occ]. destruct (Nat.eq_dec l l); [lia|congruence]. }
    assert (Ecb : c < nth (l - 1) (first_codes numl) 0 + nth (l - 1) numl 0).
    { rewrite Ec. rewrite E3 by lia. replace (S (l - 1)) with l by lia. lia. }
    unfold huffman_decode. rewrite Hlv.
    assert (E0 : 0 = c / 2 ^ N.of_nat l).
    { symmetry. apply N.div_small. specialize (Hbd (l - 1)%nat ltac:(lia)). replace (S (l - 1)) with l in Hbd by lia. lia. }
    rewrite E0 at 1.
    assert (Hj : forall j, (j < l)%nat -> (1 <= l - j)%nat -> (j >= 1)%nat -> c / 2 ^ N.of_nat j < nth (l - j - 1) (first_codes numl) 0).
    { rewrite Hfc in *. induction j as [|j IHj]; intros J1 J2 J3; [lia|].
      pose proof (levels_S (l - S j - 1) 1 numl Hch ltac:(lia)) as Q.
      replace (S (l - S j - 1)) with (l - j - 1)%nat in Q by lia.
      rewrite pow_S, (N.mul_comm 2), <- N.div_div by (try apply N.pow_nonzero; lia).
      destruct j as [|j].
      - change (2 ^ N.of_nat 0) with 1. rewrite N.div_1_r. rewrite Nat.sub_0_r in Q.
        apply N.div_lt_upper_bound; lia.
      - specialize (IHj ltac:(lia) ltac:(lia) ltac:(lia)).
        apply N.div_lt_upper_bound; lia. }
    rewrite (decode_loop_ok (first_codes numl) c l); auto; try lia.
    - cbn [obind]. rewrite (nth_error_nth' (first_codes numl) 0) by lia. cbn [obind].
      rewrite P3 by (apply nth_In; auto). cbn [obind].
      replace (less lens l + N.to_nat (c - nth (l - 1) (first_codes numl) 0)%N)%nat with i.
      + rewrite (nth_error_nth' omap 0) by lia. reflexivity.
      + rewrite Ec. pose proof (sorted_pos lens Hs i Hi) as Q. fold l in Q. lia.
    - specialize (Hbd (l - 1)%nat ltac:(lia)). specialize (Hp62 (S (l - 1)) ltac:(lia)).
      assert (2 ^ 62 < 2 ^ 64) by reflexivity. lia.
    - intros j J. specialize (Hj (l - j)%nat ltac:(lia) ltac:(lia) ltac:(lia)).
      replace (l - (l - j) - 1)%nat with (j - 1)%nat in Hj by lia. auto.
  Qed.
End Code.
