(** Huffman: the codeword lengths are optimal. *)
From Coq Require Import Permutation Sorted.
From Verif Require Import Base BitIO IntCodes Coders Huffman HuffmanSpec HuffTreeProofs HuffCodeProofs HuffmanProofs.
Local Open Scope nat_scope.

Definition cost (ps : list (nat * nat)) : nat := list_sum (map (fun p => fst p * snd p) ps).
Lemma cost_cons w d ps : cost ((w, d) :: ps) = w * d + cost ps.
Proof. reflexivity. Qed.
Lemma cost_perm a b : Permutation a b -> cost a = cost b.
Proof. intros H. apply list_sum_perm, Permutation_map; auto. Qed.
Lemma cost_app a b : cost (a ++ b) = cost a + cost b.
Proof. unfold cost. rewrite map_app, list_sum_app. auto. Qed.

(** give the largest depth to the lightest weight *)
Lemma swap_min ps a ws M : Permutation (map fst ps) (a :: ws) -> (forall w, In w ws -> a <= w) ->
  (forall d, In d (map snd ps) -> d <= M) -> In M (map snd ps) ->
  exists r, Permutation (map fst r) ws /\ Permutation (map snd ps) (M :: map snd r) /\
            cost ((a, M) :: r) <= cost ps.
Proof.
  intros P Hmin Hmax HM.
  assert (Ha : In a (map fst ps)) by (apply (Permutation_in _ (Permutation_sym P)); left; auto).
  apply in_map_iff in Ha. destruct Ha as ([a' da] & E & Ha). cbn in E. subst a'.
  apply in_split in Ha. destruct Ha as (u & v & ->).
  assert (PP : Permutation (u ++ (a, da) :: v) ((a, da) :: u ++ v)) by (apply Permutation_sym, Permutation_middle).
  set (r := u ++ v) in *. rewrite (cost_perm _ _ PP).
  assert (P1 : Permutation (map fst r) ws).
  { apply (Permutation_cons_inv (a := a)). rewrite <- P. rewrite PP. reflexivity. }
  destruct (Nat.eq_dec da M) as [->|Hne].
  - exists r. split; auto. split; [rewrite PP; reflexivity|]. auto.
  - assert (HM' : In M (map snd r)).
    { apply (Permutation_in _ (Permutation_map snd PP)) in HM. cbn in HM. destruct HM; [congruence|auto]. }
    apply in_map_iff in HM'. destruct HM' as ([x M'] & E & Hx). cbn in E. subst M'.
    apply in_split in Hx. destruct Hx as (u' & v' & Er).
    assert (PR : Permutation r ((x, M) :: u' ++ v')) by (rewrite Er; apply Permutation_sym, Permutation_middle).
    exists ((x, da) :: u' ++ v'). split; [|split].
    + rewrite <- P1, PR. reflexivity.
    + rewrite PP. cbn [map snd]. rewrite PR. cbn [map snd]. apply perm_swap.
    + assert (Hax : a <= x). { apply Hmin. apply (Permutation_in _ P1). rewrite PR. left; auto. }
      assert (Hd : da <= M). { apply Hmax. rewrite PP. left; auto. }
      rewrite !cost_cons. rewrite (cost_perm _ _ PR), cost_cons. nia.
Qed.

Lemma kraft_even H M ds : Forall (fun d => d < M) ds -> M <= H -> exists q, kraft H ds = (2 * 2 ^ N.of_nat (H - M) * q)%N.
Proof.
  intros Hf HM. induction Hf as [|d ds Hd Hf [q IH]]; [exists 0%N; cbn; lia|].
  unfold kraft in *. cbn [fold_right]. rewrite IH. exists (2 ^ N.of_nat (M - d - 1) + q)%N.
  replace (H - d) with (S (H - M + (M - d - 1))) by lia. rewrite pow_S, Nat2N.inj_add, N.pow_add_r. lia.
Qed.
Lemma kraft_shorten H M ds : Forall (fun d => d < M) ds -> 1 <= M <= H ->
  (kraft H (M :: ds) <= 2 ^ N.of_nat H)%N -> (kraft H ((M - 1)%nat :: ds) <= 2 ^ N.of_nat H)%N.
Proof.
  intros Hf HM. destruct (kraft_even H M ds Hf ltac:(lia)) as (q & E). unfold kraft in *. cbn [fold_right]. rewrite E.
  replace (H - (M - 1)) with (S (H - M)) by lia. rewrite pow_S.
  replace H with (S (H - M + (M - 1))) at 3 6 by lia. rewrite pow_S, Nat2N.inj_add, N.pow_add_r.
  set (u := (2 ^ N.of_nat (H - M))%N). set (p := (2 ^ N.of_nat (M - 1))%N).
  assert (u <> 0)%N by (apply N.pow_nonzero; lia).
  intros Hle. assert (q < p)%N.
  { destruct (N.lt_ge_cases q p); auto. exfalso. assert (u * p <= u * q)%N by (apply N.mul_le_mono_l; auto). lia. }
  assert (u * (q + 1) <= u * p)%N by (apply N.mul_le_mono_l; lia). lia.
Qed.

(** merging the two lightest weights *)
Lemma reduce_len m : forall H ps a b ws, list_sum (map snd ps) <= m ->
  Permutation (map fst ps) (a :: b :: ws) -> a <= b -> (forall w, In w ws -> b <= w) ->
  Forall (fun d => d <= H) (map snd ps) -> (kraft H (map snd ps) <= 2 ^ N.of_nat H)%N ->
  exists ps', Permutation (map fst ps') (a + b :: ws) /\ Forall (fun d => d <= H) (map snd ps') /\
    (kraft H (map snd ps') <= 2 ^ N.of_nat H)%N /\ cost ps' + (a + b) <= cost ps.
Proof.
  induction m as [|m IH]; intros H ps a b ws Hm P Hab Hmin Hd HK.
  - (* all depths 0 *)
    exfalso. assert (Hz : forall d, In d (map snd ps) -> d = 0).
    { intros d Hin. clear - Hm Hin. unfold list_sum in Hm. induction (map snd ps); [destruct Hin|].
      cbn [fold_right] in Hm. destruct Hin as [->|Hin]; [lia|]. apply IHl; auto. lia. }
    destruct ps as [|[w1 d1] [|[w2 d2] ps]].
    + apply Permutation_nil in P. discriminate.
    + apply Permutation_length in P. discriminate.
    + cbn [map snd] in *. rewrite (Hz d1), (Hz d2) in HK by (cbn; auto). unfold kraft in HK. cbn [fold_right] in HK.
      rewrite Nat.sub_0_r in HK. assert (2 ^ N.of_nat H <> 0)%N by (apply N.pow_nonzero; lia). lia.
  - set (ds := map snd ps) in *. set (M := list_max ds).
    assert (Hmax : forall d, In d ds -> d <= M) by (intros; apply list_max_in; auto).
    assert (Hne : ds <> []).
    { unfold ds. destruct ps; [apply Permutation_nil in P; discriminate|discriminate]. }
    assert (HM : In M ds).
    { unfold M. clear - Hne. induction ds as [|d ds IH]; [congruence|]. cbn [list_max fold_right].
      destruct (Nat.max_spec d (list_max ds)) as [[Hl E]|[Hl E]]; change (fold_right Nat.max 0 ds) with (list_max ds); rewrite E.
      - right. apply IH. intros ->. cbn in Hl. lia.
      - left. auto. }
    assert (HMH : M <= H) by (rewrite Forall_forall in Hd; apply Hd; auto).
    destruct (in_split _ _ HM) as (u & v & Eds).
    assert (PD : Permutation ds (M :: u ++ v)) by (rewrite Eds; apply Permutation_sym, Permutation_middle).
    destruct (in_dec Nat.eq_dec M (u ++ v)) as [HM2|HM2].
    + (* two of maximal depth *)
      assert (M0 : 1 <= M).
      { destruct M; [|lia]. exfalso. rewrite (kraft_perm _ _ _ PD) in HK. destruct (in_split _ _ HM2) as (u' & v' & E').
        rewrite E' in HK. unfold kraft in HK. cbn [fold_right] in HK. fold (kraft H (u' ++ 0 :: v')) in HK.
        rewrite kraft_app in HK. unfold kraft in HK. cbn [fold_right] in HK. rewrite Nat.sub_0_r in HK.
        assert (2 ^ N.of_nat H <> 0)%N by (apply N.pow_nonzero; lia). lia. }
      destruct (swap_min ps a (b :: ws) M P) as (r & R1 & R2 & R3); auto.
      { intros w [<-|Hw]; auto. specialize (Hmin w Hw). lia. }
      assert (R2' : Permutation (map snd r) (u ++ v)).
      { apply (Permutation_cons_inv (a := M)). rewrite <- R2. auto. }
      destruct (swap_min r b ws M R1 Hmin) as (r2 & Q1 & Q2 & Q3).
      { intros d Hin. apply Hmax. apply (Permutation_in _ (Permutation_sym R2)). right; auto. }
      { apply (Permutation_in _ (Permutation_sym R2')). auto. }
      assert (PA : Permutation ds (M :: M :: map snd r2)) by (rewrite <- Q2; auto).
      exists ((a + b, M - 1) :: r2). split; [|split; [|split]].
      * cbn [map fst]. auto.
      * cbn [map snd]. apply Forall_forall. intros d [<-|Hin]; [lia|].
        rewrite Forall_forall in Hd. apply Hd. apply (Permutation_in _ (Permutation_sym PA)). right; right; auto.
      * rewrite (kraft_perm _ _ _ PA) in HK. cbn [map snd]. unfold kraft in *. cbn [fold_right] in *.
        replace (H - (M - 1)) with (S (H - M)) by lia. rewrite pow_S. lia.
      * rewrite !cost_cons in *. nia.
    + (* a single one: shorten it *)
      assert (Hlt : Forall (fun d => d < M) (u ++ v)).
      { apply Forall_forall. intros d Hin. assert (d <= M) by (apply Hmax; rewrite PD; right; auto).
        assert (d <> M) by (intros ->; auto). lia. }
      assert (M0 : 1 <= M).
      { assert (length (u ++ v) <> 0).
        { apply Permutation_length in PD. cbn in PD. unfold ds in PD. rewrite map_length in PD.
          apply Permutation_length in P. rewrite map_length in P. cbn in P. lia. }
        destruct (u ++ v); [cbn in H0; lia|]. inversion Hlt; lia. }
      assert (exists x r, Permutation ps ((x, M) :: r)).
      { unfold ds in HM. apply in_map_iff in HM. destruct HM as ([x M'] & E & Hx). cbn in E. subst M'.
        apply in_split in Hx. destruct Hx as (u' & v' & Eps). exists x, (u' ++ v'). rewrite Eps. apply Permutation_sym, Permutation_middle. }
      destruct H0 as (x & r & PR).
      assert (Pr : Permutation (map snd r) (u ++ v)).
      { apply (Permutation_cons_inv (a := M)). rewrite <- PD. unfold ds. rewrite PR. reflexivity. }
      destruct (IH H ((x, M - 1) :: r) a b ws) as (ps' & A1 & A2 & A3 & A4); auto.
      * assert (list_sum (map snd ps) = M + list_sum (map snd r)) by (rewrite (list_sum_perm _ _ (Permutation_map snd PR)); reflexivity).
        fold ds in H0. change (list_sum (map snd ((x, M - 1) :: r))) with (M - 1 + list_sum (map snd r)). lia.
      * rewrite <- P. rewrite PR. reflexivity.
      * cbn [map snd]. constructor; [lia|]. apply Forall_forall. intros d Hin. rewrite Forall_forall in Hlt.
        apply (Permutation_in _ Pr) in Hin. apply Hlt in Hin. lia.
      * cbn [map snd]. rewrite (kraft_perm H _ ((M - 1) :: u ++ v)) by (rewrite Pr; auto).
        apply kraft_shorten; auto. rewrite <- (kraft_perm _ _ _ PD). auto.
      * exists ps'. split; auto. split; auto. split; auto.
        rewrite (cost_perm _ _ PR). rewrite !cost_cons in *. nia.
Qed.

(** internal cost of a tree: the total length of its leaves' codewords *)
Fixpoint icost (t : tree) : nat :=
  match t with Lf _ _ => 0 | Nd _ l r => wt l + wt r + icost l + icost r end.
Definition wds (d : nat) (t : tree) : list (nat * nat) := map (fun p => (snd (fst p), snd p)) (dleaves d t).
Lemma icost_leaves t : forall d, cost (wds d t) = wt t * d + icost t.
Proof.
  induction t as [i w|i l IHl r IHr]; intros d.
  - unfold wds, cost, list_sum. cbn. lia.
  - unfold wds in *. cbn [dleaves]. rewrite map_app, cost_app, IHl, IHr. cbn [wt icost]. lia.
Qed.
Definition fcost (F : list tree) : nat := list_sum (map icost F).

Section Opt.
  Variables (L : stdlib) (is_heap : (nat -> nat) -> list nat -> Prop) (LOK : stdlib_ok L is_heap).
  Variable n : nat.
  Definition lower (c : nat) (F : list tree) : Prop :=
    forall H ps, Permutation (map fst ps) (map wt F) -> Forall (fun d => d <= H) (map snd ps) ->
      (kraft H (map snd ps) <= 2 ^ N.of_nat H)%N -> c <= fcost F + cost ps.

  Lemma loop_opt h : forall A F, h + 1 <= n -> forest is_heap n (h + 1) A F ->
    exists A' t, tree_loop L h A = Some A' /\ forest is_heap n 1 A' [t] /\
      Permutation (flat_map leaves F) (leaves t) /\ lower (icost t) F.
  Proof.
    induction h as [|h IH]; intros A F Hn HF; cbn [tree_loop].
    - pose proof (forest_k _ _ _ _ _ HF ltac:(lia)) as E. destruct F as [|t [|]]; try discriminate.
      exists A, t. split; auto. split; auto. split. { cbn [flat_map]. rewrite app_nil_r. reflexivity. }
      intros H ps _ _ _. unfold fcost, list_sum. cbn. lia.
    - destruct (step_forest L is_heap LOK n (S h) A F ltac:(lia) ltac:(lia) HF) as (A' & F' & E & HF' & P & t1 & t2 & F2 & PF & EF & M1 & M2 & M3).
      rewrite E. cbn [obind].
      replace (S h) with (h + 1) in HF' by lia.
      destruct (IH A' F' ltac:(lia) HF') as (A'' & t & -> & H1 & H2 & H3). exists A'', t. split; auto. split; auto.
      split; [rewrite P; auto|].
      intros H ps P1 P2 P3.
      destruct (reduce_len _ H ps (wt t1) (wt t2) (map wt F2) (le_n _)) as (ps' & A1 & A2 & A3 & A4); auto.
      { rewrite P1, PF. reflexivity. }
      { intros w Hw. apply in_map_iff in Hw. destruct Hw as (s & <- & Hs). auto. }
      specialize (H3 H ps'). subst F'. cbn [map wt] in H3. specialize (H3 A1 A2 A3).
      assert (fcost F = icost t1 + icost t2 + fcost F2).
      { unfold fcost. rewrite (list_sum_perm _ _ (Permutation_map icost PF)). unfold list_sum; cbn [map fold_right]. lia. }
      unfold fcost in H3. unfold list_sum in H3; cbn [map icost fold_right] in H3. fold (list_sum (map icost F2)) in H3. fold (fcost F2) in H3. lia.
  Qed.
End Opt.

Section Opt2.
  Variables (L : stdlib) (is_heap : (nat -> nat) -> list nat -> Prop) (LOK : stdlib_ok L is_heap).

  Lemma map_combine_key (f : nat -> nat) is : forall ws : list nat, length is = length ws ->
    map (fun p => (snd p, f (fst p))) (combine is ws) = combine ws (map f is).
  Proof. induction is; destruct ws; cbn; intros; try discriminate; auto. f_equal; auto. Qed.

  Lemma init_fcost n ws : fcost (init_forest n ws) = 0.
  Proof.
    unfold fcost, init_forest. rewrite map_map. cbn [icost]. generalize (combine (seq n n) ws).
    intros l. unfold list_sum. induction l; cbn; auto.
  Qed.
  Lemma init_wts n ws : length ws = n -> map wt (init_forest n ws) = ws.
  Proof.
    intros H. unfold init_forest. rewrite map_map. cbn [wt]. apply combine_snd. rewrite seq_length; auto.
  Qed.

  (** any other assignment of lengths satisfying Kraft's inequality costs at least as much *)
  Lemma codelengths_opt C ks : (2 <= length ks) ->
    (forall k, In k ks -> (1 <= nth k C 0)%N) ->
    (N.of_nat (list_sum (map (fun c => N.to_nat (nth c C 0%N)) ks)) < 2 ^ 32)%N ->
    exists cl, gen_codelengths L C ks = Some cl /\ length cl = length ks /\
      forall H ls, length ls = length ks -> Forall (fun d => d <= H) ls -> (kraft H ls <= 2 ^ N.of_nat H)%N ->
        cost (combine (map (fun c => N.to_nat (nth c C 0%N)) ks) cl) <=
        cost (combine (map (fun c => N.to_nat (nth c C 0%N)) ks) ls).
  Proof.
    intros Hn Hw Hsum.
    destruct (codelengths_ok L is_heap LOK C ks Hn Hw Hsum) as (cl & E1 & E2 & E3 & _).
    exists cl. split; auto. split; auto. intros H ls Hls Hd HK.
    set (n := length ks) in *. set (ws := map (fun c => N.to_nat (nth c C 0%N)) ks) in *.
    assert (Hlw : length ws = n) by (unfold ws; rewrite map_length; auto).
    assert (Hpw : Forall (fun w => 1 <= w) ws).
    { unfold ws. apply Forall_map. apply Forall_forall. intros k Hk. specialize (Hw k Hk). lia. }
    destruct (init_ok L is_heap LOK n ws Hlw Hpw) as [HF HL]. set (A0 := seq n n ++ ws) in *.
    replace n with (n - 1 + 1) in HF at 2 by lia.
    destruct (loop_opt L is_heap LOK n (n - 1) _ _ ltac:(lia) HF) as (A2 & t & Eloop & HF2 & HP & Hlow).
    pose proof (f_nodes _ _ _ _ _ HF2) as Hnd. cbn [flat_map] in Hnd. rewrite app_nil_r in Hnd.
    destruct (depths_ok n t A2) as (A3 & A4 & D3 & D4 & D5 & D6); auto; try lia.
    { apply (f_len _ _ _ _ _ HF2). }
    { apply (f_tin _ _ _ _ _ HF2). cbn; auto. }
    unfold gen_codelengths in E1. fold n in E1. fold ws in E1. fold A0 in E1. rewrite Eloop in E1. cbn [obind] in E1.
    rewrite D3 in E1. cbn [obind] in E1. rewrite D4 in E1. cbn [obind] in E1. apply Some_inj in E1.
    assert (PW : Permutation (combine ws (skipn n A4)) (wds 0 t)).
    { pose proof (skipn_map_nth 0 A4 n) as Q. replace (length A4 - n) with n in Q by lia. rewrite Q.
      fold (key A4). change (fun i : nat => nth i A4 0) with (key A4).
      rewrite <- map_combine_key by (rewrite seq_length; auto). rewrite <- HL, HP.
      unfold wds. rewrite <- (dleaves_leaves t 0), map_map.
      rewrite (map_ext_in _ (fun p => (snd (fst p), snd p))); [reflexivity|].
      intros [[i w] d] Hin. cbn. f_equal. apply dleaves_dnodes in Hin. apply D6; auto. }
    (* reduction mod 256 *)
    assert (Hh : height t <= 45).
    { apply good_height; [apply (f_good _ _ _ _ _ HF2); cbn; auto|].
      rewrite wt_leaves. rewrite (list_sum_perm _ ws); auto.
      rewrite <- HP, HL. rewrite combine_snd by (rewrite seq_length; auto). reflexivity. }
    assert (Em : map (fun d => d mod 256) (skipn n A4) = skipn n A4).
    { rewrite <- (map_id (skipn n A4)) at 2. apply map_ext_in. intros l Hin. apply Nat.mod_small.
      assert (Hl : In l (map snd (wds 0 t))).
      { rewrite <- PW. rewrite combine_snd; auto. rewrite skipn_length. lia. }
      unfold wds in Hl. rewrite map_map in Hl. apply in_map_iff in Hl. destruct Hl as ([[i w] d] & <- & Hin2).
      cbn. apply dleaves_depth in Hin2. lia. }
    rewrite <- E1, Em. rewrite (cost_perm _ _ PW). rewrite icost_leaves.
    specialize (Hlow H (combine ws ls)). rewrite init_fcost, init_wts in Hlow by auto.
    rewrite combine_fst, combine_snd in Hlow by lia. specialize (Hlow ltac:(reflexivity) Hd HK). lia.
  Qed.

  (** the table pairs every symbol with its length *)
  Lemma table_pairs C t ks : ks = gen_effective_alphabet C -> gen_huffmantable L C = Some t ->
    exists cl, gen_codelengths L C ks = Some cl /\
     (length cl = length ks -> Permutation (combine (t_map t) (t_lens t)) (combine (map N.of_nat ks) cl)).
  Proof.
    unfold gen_huffmantable. intros Hks. rewrite <- Hks. clear Hks. intros E.
    destruct (gen_codelengths L C ks) as [cl|]; [|discriminate]. cbn [obind] in E.
    destruct (gen_numl _ _) as [numl|]; [|discriminate]. cbn [obind] in E.
    destruct (gen_codewords _ _) as [cw|]; [|discriminate]. cbn [obind] in E. apply Some_inj in E. subst t.
    cbn [t_map t_lens]. exists cl. split; auto. intros Hl.
    destruct (sort_ok _ _ LOK (key cl) (seq 0 (length ks))) as [P _].
    assert (G : forall o, combine (map (fun i => N.of_nat (nth i ks 0)) o) (map (key cl) o) =
                          map (fun i => (N.of_nat (nth i ks 0), key cl i)) o).
    { induction o as [|i o IHo]; cbn [map combine]; auto. rewrite IHo. reflexivity. }
    rewrite G, <- P, <- G. 
    rewrite <- (map_map (fun i => nth i ks 0) N.of_nat).
    pose proof (skipn_map_nth 0 ks 0) as Q. cbn [skipn] in Q. rewrite Nat.sub_0_r in Q. rewrite <- Q.
    pose proof (skipn_map_nth 0 cl 0) as Q2. cbn [skipn] in Q2. rewrite Nat.sub_0_r in Q2. rewrite <- Hl. unfold key. rewrite <- Q2. reflexivity.
  Qed.
End Opt2.

Section Opt3.
  Variables (L : stdlib) (is_heap : (nat -> nat) -> list nat -> Prop) (LOK : stdlib_ok L is_heap).

  Definition look (ps : list (N * nat)) (c : N) : nat :=
    match find (fun p => (fst p =? c)%N) ps with Some p => snd p | None => 0 end.
  Lemma look_in ps c d : NoDup (map fst ps) -> In (c, d) ps -> look ps c = d.
  Proof.
    unfold look. induction ps as [|[c' d'] ps IH]; cbn [map fst find]; intros Hn Hin; [destruct Hin|].
    inversion Hn as [|? ? N1 N2]; subst. destruct (N.eqb_spec c' c) as [->|Hne].
    - destruct Hin as [E|Hin]; [injection E as ->; auto|]. exfalso. apply N1. apply (in_map fst) in Hin. auto.
    - apply IH; auto. destruct Hin as [E|Hin]; auto. congruence.
  Qed.
  Lemma write_int_len c l : length (write_int c l) = l.
  Proof. induction l; cbn [write_int length]; auto. Qed.

  Lemma sum_by_symbol (g : N -> nat) text ks : NoDup ks -> (forall c, In c text -> In (N.to_nat c) ks) ->
    list_sum (map g text) = list_sum (map (fun k => occ text k * g (N.of_nat k)) ks).
  Proof.
    intros Hn. induction text as [|c text IH]; intros Hin.
    - cbn [map]. clear. unfold list_sum. induction ks; cbn [map fold_right]; auto.
    - unfold list_sum in *. cbn [map fold_right]. rewrite IH by (intros; apply Hin; right; auto).
      specialize (Hin c (or_introl eq_refl)). clear IH.
      assert (E : forall k, occ (c :: text) k = (if Nat.eq_dec k (N.to_nat c) then 1 else 0) + occ text k).
      { intros k. unfold occ. cbn [count_occ]. destruct (N.eq_dec c (N.of_nat k)), (Nat.eq_dec k (N.to_nat c)); lia. }
      induction ks as [|k ks IHk]; [destruct Hin|]. apply NoDup_cons_iff in Hn. destruct Hn as [N1 N2]. cbn [map fold_right].
      rewrite E. destruct Hin as [->|Hin].
      + destruct (Nat.eq_dec (N.to_nat c) (N.to_nat c)); [|congruence]. rewrite N2Nat.id.
        enough (fold_right Nat.add 0 (map (fun k : nat => occ (c :: text) k * g (N.of_nat k)) ks) =
                fold_right Nat.add 0 (map (fun k : nat => occ text k * g (N.of_nat k)) ks)) by lia.
        f_equal. apply map_ext_in. intros k Hk. rewrite E. destruct (Nat.eq_dec k (N.to_nat c)); [subst k; contradiction|lia].
      + destruct (Nat.eq_dec k (N.to_nat c)); [subst k; contradiction|]. rewrite <- IHk; auto. lia.
  Qed.

  Lemma cost_combine_map (f g : nat -> nat) ks : cost (combine (map f ks) (map g ks)) = list_sum (map (fun k => f k * g k) ks).
  Proof. unfold cost, list_sum. induction ks; cbn [map combine fold_right fst snd]; auto. Qed.

  Lemma body_opt_al text al : al = gen_effective_alphabet (count_literals text) ->
    (forall i, In i al <-> In (N.of_nat i) text) -> NoDup al -> length al = effective_alphabet_size (count_literals text) ->
    huff_lits text -> (exists a b, In a text /\ In b text /\ a <> b) ->
    exists st h body, huff_init L text = Some (st, h) /\
      huff_enc_calls st (map (fun c => (c, RLit)) text) = Some body /\
      forall H (len : N -> nat), (forall c, In c text -> len c <= H) ->
        (kraft H (map len (nodup N.eq_dec text)) <= 2 ^ N.of_nat H)%N ->
        length body <= list_sum (map len text).
  Proof.
    intros Hal Hai Han Hae [[H255|Heq] Hlen] (x & y & Hx & Hy & Hxy); [|destruct (Hxy (Heq x y Hx Hy))].
    assert (Hb : bytes_ok text) by (revert H255; apply Forall_impl; unfold byte_ok; intros; lia).
    assert (Has : forall k, In k al -> k < 255).
    { intros k Hk. apply Hai in Hk. rewrite Forall_forall in H255. apply H255 in Hk. lia. }
    assert (Ha256 : forall k, In k al -> k < 256) by (intros k Hk; apply Has in Hk; lia).
    assert (H2 : 2 <= length al).
    { assert (Ix : In (N.to_nat x) al) by (apply Hai; rewrite N2Nat.id; auto).
      assert (Iy : In (N.to_nat y) al) by (apply Hai; rewrite N2Nat.id; auto).
      destruct al as [|a [|b l]]; cbn in Ix, Iy |- *; [tauto| |lia].
      destruct Ix as [Ix|[]], Iy as [Iy|[]]. lia. }
    destruct (count_ok text Hb Hlen) as [HC1 HC2].
    assert (Hw : forall k, In k al -> (1 <= nth k (count_literals text) 0)%N).
    { intros k Hk. rewrite HC2 by (apply Ha256; auto).
      apply Hai in Hk. apply (count_occ_In N.eq_dec) in Hk. unfold occ. lia. }
    assert (Hws : map (fun c => N.to_nat (nth c (count_literals text) 0%N)) al = map (occ text) al).
    { apply map_ext_in. intros k Hk. rewrite HC2 by (apply Ha256; auto). lia. }
    assert (Hsum : (N.of_nat (list_sum (map (fun c => N.to_nat (nth c (count_literals text) 0%N)) al)) < 2 ^ 32)%N).
    { rewrite Hws. pose proof (sum_occ text al Han). lia. }
    destruct (init_agree L is_heap LOK text Hb (conj (or_introl H255) Hlen)) as (st & h & d & E1 & _ & Ha).
    exists st, h.
    (* the table *)
    assert (exists t te, st = HTab t te /\ gen_huffmantable L (count_literals text) = Some t /\ gen_map_to_effective (t_map t) = Some te).
    { unfold huff_init in E1. destruct text as [|c0 text0]; [destruct Hx|]. set (tx := c0 :: text0) in *. clearbody tx.
      rewrite <- Hae in E1. destruct (Nat.eqb_spec (length al) 1); [lia|].
      destruct (gen_huffmantable L (count_literals tx)) as [t|]; [|discriminate]. cbn [obind] in E1.
      destruct (gen_map_to_effective (t_map t)) as [te|] eqn:Ete; [|discriminate]. cbn [obind] in E1.
      destruct (huffmantable_encode t); [|discriminate]. cbn [obind] in E1. apply Some_inj in E1.
      exists t, te. injection E1 as <- _. auto. }
    destruct H as (t & te & -> & Et & Ete).
    destruct (table_gen L is_heap LOK (count_literals text) al Hal) as (t' & Et' & Ht).
    { split; auto. apply nodup_bound; [exact Han|]. intros k Hk. exact (Has k Hk). } { auto. } { auto. }
    rewrite Et in Et'. apply Some_inj in Et'. subst t'.
    destruct Ht as (P & Hl & _ & K1 & K2 & K3 & K4 & _).
    assert (Hm : length (t_map t) = length al) by (rewrite (Permutation_length P), map_length; auto).
    destruct (table_pairs L is_heap LOK _ _ al Hal Et) as (cl & Ecl & Pp).
    destruct (codelengths_opt L is_heap LOK (count_literals text) al H2 Hw Hsum) as (cl' & Ecl' & Hcl & Hopt).
    rewrite Ecl in Ecl'. apply Some_inj in Ecl'. subst cl'. specialize (Pp Hcl).
    set (g := look (combine (t_map t) (t_lens t))).
    assert (Hnd : NoDup (t_map t)).
    { eapply Permutation_NoDup; [apply Permutation_sym, P|]. apply FinFun.Injective_map_NoDup; [|exact Han].
      intros u v Huv; lia. }
    assert (Ecl2 : cl = map (fun k => g (N.of_nat k)) al).
    { apply (nth_ext _ _ 0 0); [rewrite map_length; auto|]. intros j Hj.
      rewrite (nth_indep (map _ _) 0 (g (N.of_nat 0))) by (rewrite map_length; lia).
      rewrite (map_nth (fun k => g (N.of_nat k))).
      symmetry. apply look_in.
      - rewrite combine_fst by lia. auto.
      - apply (Permutation_in _ (Permutation_sym Pp)).
        replace (N.of_nat (nth j al 0), nth j cl 0) with (nth j (combine (map N.of_nat al) cl) (N.of_nat 0, 0)).
        + apply nth_In. rewrite combine_length, map_length. lia.
        + rewrite combine_nth by (rewrite map_length; lia). rewrite map_nth. reflexivity. }
    assert (Henc : forall v, In v text -> exists b, huff_enc_call (HTab t te) (v, RLit) = Some b /\ length b = g v).
    { intros v Hv.
      assert (Hin : In v (t_map t)).
      { apply (Permutation_in _ (Permutation_sym P)), in_map_iff. exists (N.to_nat v). split; [lia|].
        apply Hai. rewrite N2Nat.id. auto. }
      apply (In_nth _ _ 0%N) in Hin. destruct Hin as (i & Hi & Ev).
      assert (Hsm : Forall (fun c => (c < 255)%N) (t_map t)).
      { apply Forall_forall. intros c Hc. apply (Permutation_in _ P), in_map_iff in Hc. destruct Hc as (k & <- & Hk).
        pose proof (Has k Hk). lia. }
      destruct (to_eff_ok (t_map t) Hnd Hsm) as (te' & T1 & T2 & T3).
      { rewrite Hm. apply nodup_bound; [exact Han|]. intros k Hk. exact (Has k Hk). }
      rewrite Ete in T1. apply Some_inj in T1. subst te'.
      cbn [huff_enc_call]. unfold huffman_encode.
      assert (Hv' : (v < 256)%N) by (unfold bytes_ok in Hb; rewrite Forall_forall in Hb; apply Hb; auto).
      unfold w8. rewrite N.mod_small by auto. rewrite <- Ev. rewrite T3 by auto. cbn [obind].
      rewrite (nth_error_nth' (t_codewords t) 0%N) by lia. cbn [obind].
      rewrite (nth_error_nth' (t_lens t) 0) by lia. cbn [obind]. eexists. split; [reflexivity|].
      rewrite write_int_len. symmetry. apply look_in; [rewrite combine_fst by lia; auto|].
      replace (nth i (t_map t) 0%N, nth i (t_lens t) 0) with (nth i (combine (t_map t) (t_lens t)) (0%N, 0)).
      - apply nth_In. rewrite combine_length. lia.
      - apply combine_nth. lia. }
    assert (Hbody : forall cs, (forall v, In v cs -> In v text) -> exists body,
      huff_enc_calls (HTab t te) (map (fun c => (c, RLit)) cs) = Some body /\ length body = list_sum (map g cs)).
    { induction cs as [|v cs IH]; intros Hin; cbn [map huff_enc_calls].
      - exists []. auto.
      - destruct (Henc v (Hin v (or_introl eq_refl))) as (b & -> & Eb). cbn [obind].
        destruct IH as (bd & -> & Ebd); [intros; apply Hin; right; auto|]. cbn [obind]. eexists. split; [reflexivity|].
        rewrite app_length. unfold list_sum in *. cbn [fold_right]. lia. }
    destruct (Hbody text ltac:(auto)) as (body & Eb1 & Eb2). exists body. split; auto. split; auto.
    intros H len Hle HK. rewrite Eb2.
    assert (Hall : forall c, In c text -> In (N.to_nat c) al) by (intros c Hc; apply Hai; rewrite N2Nat.id; auto).
    rewrite (sum_by_symbol g text al), (sum_by_symbol len text al) by auto.
    rewrite <- !cost_combine_map. rewrite Hws in Hopt. rewrite Ecl2 in Hopt. apply (Hopt H).
    - apply map_length.
    - apply Forall_map, Forall_forall. intros k Hk. apply Hle. exact (proj1 (Hai k) Hk).
    - rewrite (kraft_perm _ _ (map len (nodup N.eq_dec text))); auto.
      rewrite <- (map_map N.of_nat len). apply Permutation_map. apply NoDup_Permutation.
      + apply FinFun.Injective_map_NoDup; [intros u v; lia|exact Han].
      + apply NoDup_nodup.
      + intros c. rewrite nodup_In, in_map_iff. split.
        * intros (k & <- & Hk). exact (proj1 (Hai k) Hk).
        * intros Hc. exists (N.to_nat c). split; [lia|auto].
  Qed.
  Lemma body_opt text : huff_lits text -> (exists a b, In a text /\ In b text /\ a <> b) ->
    exists st h body, huff_init L text = Some (st, h) /\
      huff_enc_calls st (map (fun c => (c, RLit)) text) = Some body /\
      forall H (len : N -> nat), (forall c, In c text -> len c <= H) ->
        (kraft H (map len (nodup N.eq_dec text)) <= 2 ^ N.of_nat H)%N ->
        length body <= list_sum (map len text).
  Proof.
    intros HL Hxy. assert (HL' := HL). destruct HL' as [[H255|Heq] Hlen];
      [|destruct Hxy as (x & y & Hx & Hy & Hxy); destruct (Hxy (Heq x y Hx Hy))].
    assert (Hb : bytes_ok text) by (revert H255; apply Forall_impl; unfold byte_ok; intros; lia).
    apply (body_opt_al text (alpha text) (alpha_eq text)); auto using alpha_nodup.
    - exact (fun i => alpha_in text i Hb Hlen).
    - symmetry. exact (effective_size text Hb Hlen).
  Qed.
  (** Kraft's inequality for prefix-free codes *)
  Definition indep (a b : list bool) : Prop := ~ prefix_of a b /\ ~ prefix_of b a.
  Lemma kraft_cons H l ls : kraft H (l :: ls) = (2 ^ N.of_nat (H - l) + kraft H ls)%N.
  Proof. reflexivity. Qed.
  Lemma kraft_split H (f : bool -> list (list bool)) ws :
    (forall b, f b = map (@tl bool) (filter (fun w => Bool.eqb (hd false w) b) ws)) ->
    Forall (fun w => w <> []) ws ->
    kraft (S H) (map (@length bool) ws) = (kraft H (map (@length bool) (f true)) + kraft H (map (@length bool) (f false)))%N.
  Proof.
    intros Hf Hn. rewrite !Hf. clear Hf f. induction ws as [|w ws IH]; [reflexivity|].
    inversion Hn as [|? ? N1 N2]; subst. destruct w as [|b w]; [congruence|].
    cbn [filter hd]. destruct b; cbn [Bool.eqb map tl length]; rewrite !kraft_cons; rewrite IH by auto;
      rewrite Nat.sub_succ; lia.
  Qed.
  Lemma indep_nil a : ~ indep [] a.
  Proof. intros [H _]. apply H. exists a. reflexivity. Qed.
  Lemma indep_nil_r a : ~ indep a [].
  Proof. intros [_ H]. apply H. exists a. reflexivity. Qed.
  Lemma kraft_prefix_free H : forall ws, ForallOrdPairs indep ws -> Forall (fun w => length w <= H) ws ->
    (kraft H (map (@length bool) ws) <= 2 ^ N.of_nat H)%N.
  Proof.
    induction H as [|H IH]; intros ws HP HL.
    - destruct ws as [|a [|b ws]]; cbn; try lia.
      inversion HL as [|? ? L1 L2]; subst. inversion L2 as [|? ? L3 L4]; subst.
      destruct a; [|cbn in L1; lia]. inversion HP as [|? ? P1 P2]; subst. inversion P1; subst.
      exfalso. eapply indep_nil; eauto.
    - destruct (in_dec (list_eq_dec Bool.bool_dec) [] ws) as [Hin|Hin].
      + assert (ws = [[]]) as ->.
        { destruct ws as [|a ws]; [destruct Hin|]. inversion HP as [|? ? P1 P2]; subst.
          destruct a as [|x a].
          - destruct ws as [|b ws]; auto. inversion P1; subst. exfalso; eapply indep_nil; eauto.
          - destruct Hin as [E|Hin]; [discriminate|]. rewrite Forall_forall in P1. apply P1 in Hin.
            exfalso; eapply indep_nil_r; eauto. }
        cbn [map length]. rewrite kraft_cons. cbn [kraft fold_right]. rewrite Nat.sub_0_r. lia.
      + assert (Hne : Forall (fun w => w <> []) ws).
        { apply Forall_forall. intros w Hw ->. contradiction. }
        set (f := fun b => map (@tl bool) (filter (fun w => Bool.eqb (hd false w) b) ws)).
        rewrite (kraft_split H f ws) by auto.
        assert (G : forall b, (kraft H (map (@length bool) (f b)) <= 2 ^ N.of_nat H)%N).
        { intros b. apply IH; unfold f; clear - HP HL Hne.
          - induction HP as [|w ws P1 P2 IHP]; [constructor|].
            inversion HL as [|? ? L1 L2]; subst. inversion Hne as [|? ? N1 N2]; subst. specialize (IHP L2 N2).
            cbn [filter]. destruct (Bool.eqb_spec (hd false w) b) as [E|E]; auto. cbn [map]. constructor; auto.
            apply Forall_forall. intros u Hu. apply in_map_iff in Hu. destruct Hu as (v & <- & Hv).
            apply filter_In in Hv. destruct Hv as [Hv Hb]. apply Bool.eqb_prop in Hb.
            rewrite Forall_forall in P1, N2. pose proof (P1 v Hv) as [I1 I2]. pose proof (N2 v Hv).
            destruct w as [|x w]; [congruence|]. destruct v as [|y v]; [congruence|]. cbn in E, Hb. subst x y. cbn [tl].
            split; intros (r & Er); [apply I1|apply I2]; exists r; cbn; congruence.
          - apply Forall_map. apply Forall_forall. intros w Hw. apply filter_In in Hw. destruct Hw as [Hw _].
            rewrite Forall_forall in HL. apply HL in Hw. destruct w; cbn in *; lia. }
        pose proof (G true). pose proof (G false).
        replace (N.of_nat (S H)) with (N.of_nat H + 1)%N by lia. rewrite N.pow_add_r. change (2 ^ 1)%N with 2%N. lia.
  Qed.

  Lemma body_opt_code text : huff_lits text -> (exists a b, In a text /\ In b text /\ a <> b) ->
    exists st h body, huff_init L text = Some (st, h) /\
      huff_enc_calls st (map (fun c => (c, RLit)) text) = Some body /\
      forall code, prefix_free text code -> length body <= length (flat_map code text).
  Proof.
    intros HL Hd. destruct (body_opt text HL Hd) as (st & h & body & E1 & E2 & G).
    exists st, h, body. split; auto. split; auto. intros code Hc.
    set (H := list_max (map (fun c => length (code c)) text)).
    assert (HH : forall c, In c text -> length (code c) <= H).
    { intros c Hin. apply list_max_in. apply in_map_iff. eauto. }
    specialize (G H (fun c => length (code c)) HH).
    replace (length (flat_map code text)) with (list_sum (map (fun c => length (code c)) text)).
    2: { clear. unfold list_sum. induction text; cbn [map fold_right flat_map]; auto. rewrite app_length; auto. }
    apply G. rewrite <- (map_map code (@length bool)). apply kraft_prefix_free.
    - clear G. assert (NoDup (nodup N.eq_dec text)) as Hnd by apply NoDup_nodup.
      assert (Hin : forall c, In c (nodup N.eq_dec text) -> In c text) by (intros c; apply nodup_In).
      induction (nodup N.eq_dec text) as [|c l IH]; cbn [map]; constructor.
      + apply Forall_map, Forall_forall. intros c' Hc'. inversion Hnd as [|? ? N1 N2]; subst.
        split; intros Hp; apply Hc in Hp; try (apply Hin; cbn; auto); subst; contradiction.
      + inversion Hnd; subst. apply IH; auto. intros; apply Hin; right; auto.
    - apply Forall_map, Forall_forall. intros c Hin. apply HH. apply nodup_In in Hin. auto.
  Qed.
End Opt3.
