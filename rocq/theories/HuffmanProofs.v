(** Huffman coder: assembling the pieces. *)
From Coq Require Import Permutation Sorted.
From Verif Require Import Base BitIO BitIOProofs IntCodes IntCodesProofs Coders CodersProofs LooseCoders
  Huffman HuffmanSpec HuffTreeProofs HuffCodeProofs.
Local Open Scope N_scope.

Lemma skipn_map_nth {A} (d : A) (l : list A) : forall s, skipn s l = map (fun i => nth i l d) (seq s (length l - s)).
Proof.
  induction l as [|x l IH]; intros s; [rewrite skipn_nil; reflexivity|].
  destruct s as [|s]; cbn [skipn length].
  - rewrite Nat.sub_0_r. cbn [seq map nth]. f_equal. rewrite <- seq_shift, map_map. 
    specialize (IH 0%nat). cbn [skipn] in IH. rewrite Nat.sub_0_r in IH. exact IH.
  - rewrite Nat.sub_succ. rewrite <- seq_shift, map_map. apply IH.
Qed.

(** ** Counting *)
Definition occ (lits : list N) (i : nat) : nat := count_occ N.eq_dec lits (N.of_nat i).
Lemma occ_le lits i : (occ lits i <= length lits)%nat.
Proof. unfold occ. induction lits as [|a r IH]; cbn [count_occ length]; [lia|]. destruct (N.eq_dec a (N.of_nat i)); lia. Qed.
Lemma count_ok lits : bytes_ok lits -> N.of_nat (length lits) < 2 ^ 32 ->
  length (count_literals lits) = 256%nat /\
  forall i, (i < 256)%nat -> nth i (count_literals lits) 0 = N.of_nat (occ lits i).
Proof.
  intros Hb Hl.
  assert (G : forall post pre C, length C = 256%nat -> bytes_ok post ->
    N.of_nat (length (pre ++ post)) < 2 ^ 32 ->
    (forall i, (i < 256)%nat -> nth i C 0 = N.of_nat (occ pre i)) ->
    let C' := fold_left (fun C c => upd C (N.to_nat (w8 c)) (w32 (nth (N.to_nat (w8 c)) C 0%N + 1))) post C in
    length C' = 256%nat /\ forall i, (i < 256)%nat -> nth i C' 0 = N.of_nat (occ (pre ++ post) i)).
  { induction post as [|c post IH]; intros pre C HC Hp Hlen Hn; cbn [fold_left].
    - rewrite app_nil_r. auto.
    - inversion Hp as [|? ? Hc Hp']; subst. unfold byte_ok in Hc.
      assert (Ew : w8 c = c) by (apply N.mod_small; auto). rewrite Ew.
      assert (E2 : pre ++ c :: post = (pre ++ [c]) ++ post) by (rewrite <- app_assoc; auto).
      rewrite E2 in *. apply IH; auto.
      + rewrite upd_length; auto.
      + intros i Hi. unfold occ. rewrite count_occ_app. cbn [count_occ]. fold (occ pre i).
        destruct (N.eq_dec c (N.of_nat i)) as [E|E].
        * subst c. rewrite Nat2N.id. rewrite nth_upd_eq by lia. rewrite Hn by auto.
          unfold w32. rewrite N.mod_small; [lia|].
          pose proof (occ_le pre i). rewrite !app_length in Hlen. cbn in Hlen. lia.
        * rewrite nth_upd_ne by lia. rewrite Hn by auto. f_equal. lia. }
  apply (G lits [] (repeat 0 256)); auto.
  intros i Hi. rewrite nth_repeat. reflexivity.
Qed.

Definition alpha (lits : list N) : list nat := gen_effective_alphabet (count_literals lits).
Lemma alpha_in lits i : bytes_ok lits -> N.of_nat (length lits) < 2 ^ 32 ->
  In i (alpha lits) <-> In (N.of_nat i) lits.
Proof.
  intros Hb Hl. destruct (count_ok lits Hb Hl) as [H1 H2].
  unfold alpha, gen_effective_alphabet. rewrite filter_In, in_seq.
  split.
  - intros [Hi Hn]. rewrite H2 in Hn by lia. unfold occ in Hn.
    apply (count_occ_In N.eq_dec). destruct (count_occ N.eq_dec lits (N.of_nat i)); [discriminate|lia].
  - intros Hi. assert (i < 256)%nat.
    { unfold bytes_ok in Hb. rewrite Forall_forall in Hb. apply Hb in Hi. unfold byte_ok in Hi. lia. }
    split; [lia|]. rewrite H2 by auto. apply (count_occ_In N.eq_dec) in Hi. unfold occ.
    destruct (N.eqb_spec (N.of_nat (count_occ N.eq_dec lits (N.of_nat i))) 0); [lia|reflexivity].
Qed.
Lemma alpha_nodup lits : NoDup (alpha lits).
Proof. apply NoDup_filter, seq_NoDup. Qed.
Lemma filter_map_len {A B} (f : A -> B) p l : length (filter p (map f l)) = length (filter (fun x => p (f x)) l).
Proof. induction l; cbn; auto. destruct (p (f a)); cbn; auto. Qed.
Lemma effective_size lits : bytes_ok lits -> N.of_nat (length lits) < 2 ^ 32 ->
  effective_alphabet_size (count_literals lits) = length (alpha lits).
Proof.
  intros Hb Hl. destruct (count_ok lits Hb Hl) as [H1 H2]. unfold effective_alphabet_size, alpha, gen_effective_alphabet.
  assert (E : count_literals lits = map (fun i => nth i (count_literals lits) 0) (seq 0 256)).
  { pose proof (skipn_map_nth 0 (count_literals lits) 0) as Q. rewrite H1 in Q. exact Q. }
  rewrite E at 1. rewrite filter_map_len. reflexivity.
Qed.
Lemma alpha_256 lits k : In k (alpha lits) -> (k < 256)%nat.
Proof. unfold alpha, gen_effective_alphabet. intros Hk. apply filter_In in Hk. destruct Hk as [Hk _]. apply in_seq in Hk. lia. Qed.
Lemma alpha_small lits i : bytes_ok lits -> N.of_nat (length lits) < 2 ^ 32 -> Forall (fun c => c < 255) lits ->
  In i (alpha lits) -> (i < 255)%nat.
Proof.
  intros Hb Hl H255 Hi. apply alpha_in in Hi; auto. rewrite Forall_forall in H255. apply H255 in Hi. lia.
Qed.
Lemma nodup_bound (l : list nat) m : NoDup l -> (forall x, In x l -> x < m)%nat -> (length l <= m)%nat.
Proof.
  intros Hn Hb. rewrite <- (seq_length m 0). apply NoDup_incl_length; auto.
  intros x Hx. apply in_seq. specialize (Hb x Hx). lia.
Qed.

(** sum of the weights *)
Lemma sum_occ lits ks : NoDup ks -> (list_sum (map (occ lits) ks) <= length lits)%nat.
Proof.
  intros Hn. induction lits as [|c lits IH].
  - clear Hn. induction ks as [|k ks IHk]; auto.
  - assert (E : (list_sum (map (occ (c :: lits)) ks) =
      list_sum (map (occ lits) ks) + length (filter (fun k => N.eqb c (N.of_nat k)) ks))%nat).
    { clear. induction ks as [|k ks IH]; [reflexivity|]. unfold list_sum in *. cbn [map fold_right filter].
      rewrite IH. unfold occ at 1. cbn [count_occ]. fold (occ lits k).
      destruct (N.eq_dec c (N.of_nat k)), (N.eqb_spec c (N.of_nat k)); try congruence; cbn [length]; lia. }
    rewrite E. cbn [length].
    assert (length (filter (fun k => N.eqb c (N.of_nat k)) ks) <= 1)%nat; [|lia].
    clear - Hn. assert (H : NoDup (filter (fun k => N.eqb c (N.of_nat k)) ks)) by (apply NoDup_filter; auto).
    assert (G : forall x, In x (filter (fun k => N.eqb c (N.of_nat k)) ks) -> x = N.to_nat c).
    { intros x Hx. apply filter_In in Hx. destruct Hx as [_ Hx]. apply N.eqb_eq in Hx. lia. }
    destruct (filter _ ks) as [|x [|y l]]; cbn; try lia.
    exfalso. inversion H as [|? ? N1 N2]; subst. apply N1. left.
    rewrite (G x), (G y); cbn; auto.
Qed.

Lemma alpha_eq lits : alpha lits = gen_effective_alphabet (count_literals lits).
Proof. reflexivity. Qed.
Opaque alpha count_literals gen_effective_alphabet effective_alphabet_size.

Section Coder.
  Variables (L : stdlib) (is_heap : (nat -> nat) -> list nat -> Prop) (LOK : stdlib_ok L is_heap).

  (** ** codeword lengths *)
  Lemma codelengths_ok C ks : (2 <= length ks)%nat ->
    (forall k, In k ks -> 1 <= nth k C 0) ->
    N.of_nat (list_sum (map (fun c => N.to_nat (nth c C 0)) ks)) < 2 ^ 32 ->
    exists cl, gen_codelengths L C ks = Some cl /\ length cl = length ks /\
      Forall (fun l => 1 <= l <= 45)%nat cl /\
      forall H, (45 <= H)%nat -> kraft H cl = 2 ^ N.of_nat H.
  Proof.
    intros Hn Hw Hsum. set (n := length ks) in *. set (ws := map (fun c => N.to_nat (nth c C 0)) ks) in *.
    assert (Hlw : length ws = n) by (unfold ws; rewrite map_length; auto).
    assert (Hpw : Forall (fun w => 1 <= w)%nat ws).
    { unfold ws. apply Forall_map. apply Forall_forall. intros k Hk. specialize (Hw k Hk). lia. }
    destruct (codelengths_tree L is_heap LOK n ws ltac:(lia) Hlw Hpw)
      as (A2 & A3 & A4 & t & E2 & E3 & E4 & HA4 & Hg & Hlv & Hd).
    unfold gen_codelengths. fold n. fold ws. rewrite E2. cbn [obind]. rewrite E3. cbn [obind].
    rewrite E4. cbn [obind]. eexists. split; [reflexivity|].
    assert (Hwt : N.of_nat (wt t) < 2 ^ 32).
    { rewrite wt_leaves. rewrite (list_sum_perm _ ws); auto.
      rewrite Hlv. rewrite combine_snd by (rewrite seq_length; auto). reflexivity. }
    pose proof (good_height t Hg Hwt) as Hh.
    assert (P : Permutation (skipn n A4) (map snd (dleaves 0 t))).
    { rewrite (skipn_map_nth 0%nat). replace (length A4 - n)%nat with n by lia.
      assert (Es : seq n n = map fst (combine (seq n n) ws)).
      { rewrite combine_fst; auto. rewrite seq_length; auto. }
      rewrite Es. rewrite <- Hlv. rewrite <- (dleaves_leaves t 0). rewrite !map_map.
      rewrite (map_ext_in _ snd); [reflexivity|].
      intros [[i w] d] Hin. cbn. apply (Hd _ _ _ Hin). }
    assert (Hb : forall l, In l (skipn n A4) -> (1 <= l <= 45)%nat).
    { intros l Hin. apply (Permutation_in _ P) in Hin. apply in_map_iff in Hin.
      destruct Hin as ([[i w] d] & <- & Hin). cbn.
      pose proof (dleaves_depth _ _ _ _ _ Hin) as Q.
      destruct t as [j wj|j tl tr].
      - apply Permutation_length in Hlv. rewrite combine_length, seq_length in Hlv. cbn in Hlv. lia.
      - cbn [dleaves] in Hin. apply in_app_or in Hin.
        destruct Hin as [Hin|Hin]; apply dleaves_depth in Hin; lia. }
    assert (Em : map (fun d => d mod 256)%nat (skipn n A4) = skipn n A4).
    { rewrite <- (map_id (skipn n A4)) at 2. apply map_ext_in. intros l Hin. apply Nat.mod_small.
      specialize (Hb l Hin). lia. }
    rewrite Em. split; [|split].
    - rewrite skipn_length. lia.
    - apply Forall_forall. auto.
    - intros H HH. rewrite (kraft_perm _ _ _ P). rewrite kraft_tree by lia. rewrite Nat.sub_0_r. reflexivity.
  Qed.

  Lemma kraft_scale a b ls : Forall (fun l => l <= a)%nat ls -> (a <= b)%nat ->
    kraft b ls = kraft a ls * 2 ^ N.of_nat (b - a).
  Proof.
    intros Hf Hab. induction Hf as [|l ls Hl Hf IH]; [reflexivity|]. unfold kraft in *. cbn [fold_right].
    rewrite IH, N.mul_add_distr_r. f_equal. rewrite <- N.pow_add_r. f_equal. lia.
  Qed.
  Lemma list_max_in l x : In x l -> (x <= list_max l)%nat.
  Proof. intros H. pose proof (proj1 (list_max_le l (list_max l)) (le_n _)) as Q. rewrite Forall_forall in Q. auto. Qed.

  (** ** The table *)
  Definition table_ok (t : htable) (ks : list nat) : Prop :=
    Permutation (t_map t) (map N.of_nat ks) /\
    length (t_lens t) = length ks /\
    (exists psl,
      length (t_numl t) = t_longest t /\ (1 <= t_longest t <= 45)%nat /\ Forall (fun x => x < 256) (t_numl t) /\
      length (t_codewords t) = length (t_lens t) /\
      gen_ordered_codelength (length (t_lens t)) (t_numl t) = Some (t_lens t) /\
      gen_prefix_sum_lengths (t_lens t) (t_longest t) = Some psl /\
      gen_first_codes (t_numl t) = Some (first_codes (t_numl t)) /\
      Forall (fun l => 1 <= l)%nat (t_lens t) /\
      forall (omap : list N) i rest, length omap = length (t_lens t) -> (i < length (t_lens t))%nat ->
        huffman_decode lrb omap psl (first_codes (t_numl t))
          (write_int (nth i (t_codewords t) 0) (nth i (t_lens t) 0%nat) ++ rest) = Some (nth i omap 0, rest)).

  Lemma table_gen C ks : ks = gen_effective_alphabet C ->
    (2 <= length ks <= 255)%nat -> (forall k, In k ks -> 1 <= nth k C 0) ->
    N.of_nat (list_sum (map (fun c => N.to_nat (nth c C 0)) ks)) < 2 ^ 32 ->
    exists t, gen_huffmantable L C = Some t /\ table_ok t ks.
  Proof.
    intros Hks Hn Hw Hs. unfold gen_huffmantable. cbv zeta. rewrite <- Hks. clear Hks.
    destruct (codelengths_ok C ks ltac:(lia) Hw Hs) as (cl & E1 & E2 & E3 & E4).
    rewrite E1. cbn [obind].
    destruct (sort_ok _ _ LOK (key cl) (seq 0 (length ks))) as [P S].
    set (order := std_sort L (key cl) (seq 0 (length ks))) in *.
    set (lens := map (key cl) order). set (lg := list_max cl).
    assert (Pl : Permutation lens cl).
    { unfold lens. rewrite <- P. rewrite <- E2. pose proof (skipn_map_nth 0%nat cl 0) as Q.
      cbn [skipn] in Q. rewrite Nat.sub_0_r in Q. unfold key. rewrite <- Q. reflexivity. }
    assert (Hlen : length lens = length ks) by (rewrite (Permutation_length Pl); auto).
    assert (Hlg : (1 <= lg <= 45)%nat).
    { rewrite Forall_forall in E3. split.
      - destruct cl as [|x cl']; [cbn in E2; lia|]. pose proof (list_max_in (x :: cl') x ltac:(left; auto)).
        specialize (E3 x ltac:(left; auto)). unfold lg. lia.
      - apply list_max_le. apply Forall_forall. intros x Hx. apply E3; auto. }
    assert (Hf : Forall (fun l => 1 <= l <= lg)%nat lens).
    { apply Forall_forall. intros x Hx. apply (Permutation_in _ Pl) in Hx. split.
      - rewrite Forall_forall in E3. apply E3; auto.
      - apply list_max_in; auto. }
    assert (Hsl : StronglySorted le lens).
    { unfold lens. clear - S. induction S as [|x l S IH F]; cbn [map]; constructor; auto.
      apply Forall_map. auto. }
    assert (HK : kraft lg lens = 2 ^ N.of_nat lg).
    { rewrite (kraft_perm _ _ _ Pl). specialize (E4 45%nat ltac:(lia)).
      rewrite (kraft_scale lg 45) in E4; [|apply list_max_le; unfold lg; lia|lia].
      replace 45%nat with (lg + (45 - lg))%nat in E4 at 2 by lia.
      rewrite Nat2N.inj_add, N.pow_add_r in E4. apply N.mul_cancel_r in E4; auto. apply N.pow_nonzero; lia. }
    destruct (code_ok lens lg) as (numl & cw & psl & K1 & K2 & K3 & K4 & K5 & K6 & K7 & K8 & K9); auto; try lia.
    { destruct lens; [cbn in Hlen; lia|discriminate]. }
    rewrite K1. cbn [obind]. rewrite K4. cbn [obind]. eexists. split; [reflexivity|].
    unfold table_ok. cbn [t_map t_lens t_numl t_longest t_codewords].
    split; [|split; [auto|]].
    - rewrite <- P. rewrite <- (map_map (fun i => nth i ks 0%nat) N.of_nat).
      pose proof (skipn_map_nth 0%nat ks 0) as Q. cbn [skipn] in Q. rewrite Nat.sub_0_r in Q. rewrite <- Q. reflexivity.
    - exists psl. repeat (split; [solve [auto|lia]|]). split; [|auto].
      revert Hf. apply Forall_impl. intros; lia.
  Qed.

  (** ** map_to_effective *)
  Lemma to_eff_ok omap : NoDup omap -> Forall (fun c => c < 255) omap -> (length omap <= 255)%nat ->
    exists m, gen_map_to_effective omap = Some m /\ length m = 255%nat /\
      forall i, (i < length omap)%nat -> nth_error m (N.to_nat (nth i omap 0)) = Some (Some i).
  Proof.
    intros Hn Hf Hl. unfold gen_map_to_effective.
    assert (G : forall post pre m, omap = pre ++ post -> length m = 255%nat ->
      (forall i, (i < length pre)%nat -> nth_error m (N.to_nat (nth i omap 0)) = Some (Some i)) ->
      exists m', fold_left (fun o ic => do m <- o; hset m (N.to_nat (snd ic)) (Some (fst ic mod 256)%nat))
            (combine (seq (length pre) (length post)) post) (Some m) = Some m' /\ length m' = 255%nat /\
      forall i, (i < length omap)%nat -> nth_error m' (N.to_nat (nth i omap 0)) = Some (Some i)).
    { induction post as [|c post IH]; intros pre m Eo Hm Hp; cbn [length seq combine fold_left].
      - exists m. split; auto. split; auto. intros i Hi. apply Hp. rewrite Eo, app_nil_r in Hi. auto.
      - cbn [obind snd fst].
        assert (Hc : c < 255). { rewrite Forall_forall in Hf. apply Hf. rewrite Eo. apply in_or_app; right; left; auto. }
        rewrite hset_some by lia.
        assert (Hpl : (length pre < 255)%nat) by (rewrite Eo, app_length in Hl; cbn in Hl; lia).
        rewrite Nat.mod_small by lia.
        assert (Enth : nth (length pre) omap 0 = c) by (rewrite Eo, app_nth2, Nat.sub_diag by lia; auto).
        destruct (IH (pre ++ [c]) (upd m (N.to_nat c) (Some (length pre)))) as (m' & Q1 & Q2 & Q3).
        + rewrite <- app_assoc. auto.
        + rewrite upd_length. auto.
        + rewrite app_length. cbn [length]. intros i Hi. destruct (Nat.eq_dec i (length pre)) as [->|Hne].
          * rewrite Enth. apply nth_error_upd_eq. lia.
          * rewrite nth_error_upd_ne; [apply Hp; lia|]. intros E.
            assert (E' : nth i omap 0 = nth (length pre) omap 0) by lia.
            apply Hne. rewrite NoDup_nth in Hn. apply (Hn i (length pre)) in E'; auto; rewrite Eo, app_length; cbn; lia.
        + rewrite app_length in Q1. cbn [length] in Q1. rewrite Nat.add_1_r in Q1. eauto. }
    apply (G omap [] _ eq_refl); auto. cbn; lia.
  Qed.

  (** ** writing and reading the table *)
  Lemma rd_cint7_ok v rest : v < 2 ^ 64 ->
    exists l, write_cint v 7 = Some l /\ (length l <= dfuel)%nat /\ rd_cint7 lrb (l ++ rest) = Some (v, rest).
  Proof.
    intros H. destruct (rd_cint_ok v 7 rest H ltac:(lia)) as (l & E1 & E2). exists l. split; auto.
    assert (Hl : (length l <= dfuel)%nat).
    { (* at most 10 groups of 8 bits *)
      unfold write_cint in E1. cbn [Nat.ltb Nat.leb] in E1.
      assert (G : forall fuel k mask v l, v < 2 ^ N.of_nat (7 * k) -> write_cint_loop fuel mask v 7 = Some l -> (length l <= 8 * S k)%nat).
      { clear. induction fuel as [|fuel IH]; intros k mask v l Hv E; [discriminate|].
        cbn [write_cint_loop] in E. destruct (N.ltb_spec 0 (N.shiftr v (N.of_nat 7))) as [Hp|Hp].
        - destruct (write_cint_loop fuel mask (N.shiftr v (N.of_nat 7)) 7) as [r|] eqn:Er; [|discriminate].
          apply Some_inj in E. subst l. rewrite N.shiftr_div_pow2 in *.
          destruct k as [|k].
          { change (2 ^ N.of_nat (7 * 0)) with 1 in Hv. rewrite N.div_small in Hp; [lia|]. change (2 ^ N.of_nat 7) with 128. lia. }
          apply (IH k) in Er.
          + cbn [app length]. cbn [write_int app length]. lia.
          + apply N.div_lt_upper_bound; [apply N.pow_nonzero; lia|]. rewrite <- N.pow_add_r.
            eapply N.lt_le_trans; [exact Hv|]. apply N.pow_le_mono_r; lia.
        - apply Some_inj in E. subst l. cbn [length write_int]. lia. }
      apply (G _ 10%nat) in E1; [unfold dfuel; lia|].
      eapply N.lt_le_trans; [exact H|]. apply N.pow_le_mono_r; lia. }
    split; auto. apply E2; auto.
  Qed.
  Lemma rd_cints_ok numl : Forall (fun x => x < 256) numl -> forall rest,
    exists l, write_cints numl = Some l /\ rd_cints lrb (length numl) (l ++ rest) = Some (numl, rest).
  Proof.
    induction 1 as [|x numl Hx Hn IH]; intros rest; cbn [write_cints length rd_cints].
    - exists []. split; auto.
    - destruct (IH rest) as (b & E1 & E2).
      destruct (rd_cint7_ok x (b ++ rest)) as (a & E3 & _ & E4). { rewrite pow64. lia. }
      rewrite E3, E1. cbn [obind]. eexists; split; [reflexivity|]. rewrite <- app_assoc.
      unfold rd_cint7_8. rewrite E4. cbn [obind]. rewrite E2. cbn [obind]. unfold w8. rewrite N.mod_small by auto. reflexivity.
  Qed.
  Lemma rd_bytes_ok l : Forall (fun x => x < 256) l -> forall rest,
    rd_bytes lrb (length l) (flat_map (fun x => write_int x 8) l ++ rest) = (l, rest).
  Proof.
    induction 1 as [|x l Hx Hl IH]; intros rest; [reflexivity|]. cbn [length rd_bytes flat_map].
    rewrite <- app_assoc, rd_int8 by auto. rewrite IH. reflexivity.
  Qed.

  Lemma table_code_ok t ks rest : table_ok t ks -> (2 <= length ks <= 255)%nat -> Forall (fun k => k < 255)%nat ks ->
    exists h psl, huffmantable_encode t = Some h /\
      gen_prefix_sum_lengths (t_lens t) (t_longest t) = Some psl /\
      huff_open lrb (true :: h ++ rest) = Some (Some (t_map t, psl, first_codes (t_numl t)), rest).
  Proof.
    intros (P & Hl & psl & K1 & K2 & K3 & K4 & K5 & K6 & K7 & K8) Hn Hk.
    assert (Hm : length (t_map t) = length ks) by (rewrite (Permutation_length P), map_length; auto).
    assert (Hmb : Forall (fun x => x < 256) (t_map t)).
    { apply Forall_forall. intros x Hx. apply (Permutation_in _ P), in_map_iff in Hx.
      destruct Hx as (k & <- & Hx). rewrite Forall_forall in Hk. apply Hk in Hx. lia. }
    unfold huffmantable_encode.
    destruct (rd_cint7_ok (N.of_nat (length (t_map t))) (flat_map (fun x => write_int x 8) (t_map t) ++ rest)) as (c & C1 & _ & C2).
    { rewrite pow64; lia. }
    destruct (rd_cints_ok (t_numl t) K3 (c ++ flat_map (fun x => write_int x 8) (t_map t) ++ rest)) as (b & B1 & B2).
    destruct (rd_cint7_ok (N.of_nat (t_longest t)) (b ++ c ++ flat_map (fun x => write_int x 8) (t_map t) ++ rest)) as (a & A1 & _ & A2).
    { rewrite pow64; lia. }
    rewrite A1, B1, C1. cbn [obind]. eexists _, psl. split; [reflexivity|]. split; auto.
    unfold huff_open. cbn [lrb]. unfold huffmantable_decode. rewrite <- !app_assoc.
    unfold rd_cint7_8. rewrite A2. cbn [obind]. unfold w8. rewrite N.mod_small by lia. rewrite Nat2N.id.
    rewrite <- K1, B2. cbn [obind]. rewrite C2. cbn [obind]. rewrite Nat2N.id, rd_bytes_ok by auto. cbn [obind].
    rewrite Hm, <- Hl, K5. cbn [obind]. rewrite K1, K6. cbn [obind]. rewrite K7. reflexivity.
  Qed.
End Coder.

(** ** Simulations *)
Section HSim.
  Context {S1 S2 : Type} (rb1 : S1 -> bool * S1) (rb2 : S2 -> bool * S2) (R : S1 -> S2 -> Prop).
  Hypothesis rb_sim : forall s l, R s l -> fst (rb1 s) = fst (rb2 l) /\ R (snd (rb1 s)) (snd (rb2 l)).
  Notation osim := (osim R).

  Lemma obind_sim {A B} (x : option (A * S1)) (y : option (A * S2)) (f : A * S1 -> option (B * S1)) (g : A * S2 -> option (B * S2)) :
    osim x y -> (forall a s l, R s l -> osim (f (a, s)) (g (a, l))) -> osim (obind x f) (obind y g).
  Proof.
    destruct x as [[a s]|], y as [[b l]|]; cbn; try tauto. intros [E H] G. cbn in E, H. subst b. apply G; auto.
  Qed.
  Lemma rd_cint7_sim s l : R s l -> osim (rd_cint7 rb1 s) (rd_cint7 rb2 l).
  Proof. apply rd_cint_sim; auto. Qed.
  Lemma rd_cint7_8_sim s l : R s l -> osim (rd_cint7_8 rb1 s) (rd_cint7_8 rb2 l).
  Proof. intros H. unfold rd_cint7_8. apply obind_sim; [apply rd_cint7_sim; auto|]. intros. split; auto. Qed.
  Lemma rd_cints_sim n : forall s l, R s l -> osim (rd_cints rb1 n s) (rd_cints rb2 n l).
  Proof.
    induction n as [|n IH]; intros s l H; cbn [rd_cints]; [split; auto|].
    apply obind_sim; [apply rd_cint7_8_sim; auto|]. intros a s' l' H'.
    apply obind_sim; [apply IH; auto|]. intros; split; auto.
  Qed.
  Lemma rd_bytes_sim n : forall s l, R s l -> psim R (rd_bytes rb1 n s) (rd_bytes rb2 n l).
  Proof.
    induction n as [|n IH]; intros s l H; cbn [rd_bytes]; [split; auto|].
    destruct (rd_int_sim _ _ _ rb_sim 8 s l H) as [H1 H2].
    destruct (rd_int rb1 8 s) as [v1 s1], (rd_int rb2 8 l) as [v2 l1]; cbn in H1, H2; subst.
    destruct (IH _ _ H2) as [H3 H4].
    destruct (rd_bytes rb1 n s1), (rd_bytes rb2 n l1); cbn in H3, H4; subst. split; auto.
  Qed.
  Lemma table_decode_sim s l : R s l -> osim (huffmantable_decode rb1 s) (huffmantable_decode rb2 l).
  Proof.
    intros H. unfold huffmantable_decode. apply obind_sim; [apply rd_cint7_8_sim; auto|]. intros a s1 l1 H1.
    apply obind_sim; [apply rd_cints_sim; auto|]. intros b s2 l2 H2.
    apply obind_sim; [apply rd_cint7_sim; auto|]. intros c s3 l3 H3.
    destruct (rd_bytes_sim (N.to_nat c) s3 l3 H3) as [H4 H5].
    destruct (rd_bytes rb1 (N.to_nat c) s3), (rd_bytes rb2 (N.to_nat c) l3); cbn in H4, H5; subst. split; auto.
  Qed.
  Lemma decode_loop_sim fcs fuel : forall v n s l, R s l ->
    osim (huffman_decode_loop rb1 fcs fuel v n s) (huffman_decode_loop rb2 fcs fuel v n l).
  Proof.
    induction fuel as [|fuel IH]; intros v n s l H; cbn [huffman_decode_loop]; [exact I|].
    destruct (rb_sim s l H) as [H1 H2]. destruct (rb1 s) as [b1 s1], (rb2 l) as [b2 l1]; cbn in H1, H2; subst.
    destruct (nth_error fcs n) as [f|]; cbn [obind]; [|exact I].
    destruct (w64 (2 * v + N.b2n b2) <? f); [apply IH; auto|split; auto].
  Qed.
  Lemma decode_sim omap psl fcs s l : R s l -> osim (huffman_decode rb1 omap psl fcs s) (huffman_decode rb2 omap psl fcs l).
  Proof.
    intros H. unfold huffman_decode. apply obind_sim; [apply decode_loop_sim; auto|]. intros [v n] s1 l1 H1.
    destruct (nth_error fcs n); cbn [obind]; [|exact I]. destruct (nth_error psl n) as [[p|]|]; cbn [obind]; try exact I.
    destruct (nth_error omap _); cbn [obind]; [split; auto|exact I].
  Qed.
  Lemma huff_open_sim s l : R s l -> osim (huff_open rb1 s) (huff_open rb2 l).
  Proof.
    intros H. unfold huff_open. destruct (rb_sim s l H) as [H1 H2].
    destruct (rb1 s) as [b1 s1], (rb2 l) as [b2 l1]; cbn in H1, H2; subst.
    destruct b2; [|split; auto]. apply obind_sim; [apply table_decode_sim; auto|]. intros [numl omap] s2 l2 H3.
    destruct (gen_ordered_codelength (length omap) numl) as [lns|]; cbn [obind]; [|exact I].
    destruct (gen_prefix_sum_lengths lns (length numl)); cbn [obind]; [|exact I].
    destruct (gen_first_codes numl); cbn [obind]; [split; auto|exact I].
  Qed.
  Lemma huff_dec_sim r d s l : R s l -> osim (huff_dec rb1 r d s) (huff_dec rb2 r d l).
  Proof.
    intros H. destruct r; cbn [huff_dec]; try (apply (dec_call_sim _ _ _ rb_sim); auto).
    destruct d as [[[omap psl] fcs]|]; [apply decode_sim; auto|].
    apply (rd_int_sim _ _ _ rb_sim); auto.
  Qed.
End HSim.

(** ** The coder *)
Section Loose.
  Variables (L : stdlib) (is_heap : (nat -> nat) -> list nat -> Prop) (LOK : stdlib_ok L is_heap).

  (** encoder state st and decoder tables d agree on the literals [al] *)
  Definition agree (st : hstate) (d : hdec) (al : N -> Prop) : Prop :=
    forall v, al v -> exists b, huff_enc_call st (v, RLit) = Some b /\ b <> [] /\
      forall rest, huff_dec lrb RLit d (b ++ rest) = Some (v, rest).

  Lemma init_agree lits : bytes_ok lits -> huff_lits lits ->
    exists st h d, huff_init L lits = Some (st, h) /\
      (forall rest, huff_open lrb (h ++ rest) = Some (d, rest)) /\ agree st d (fun v => In v lits).
  Proof.
    intros Hb [H255 Hlen]. unfold huff_init. destruct lits as [|c0 lits0].
    { exists HNone, [false], None. split; [reflexivity|]. split; [reflexivity|]. intros v []. }
    set (lits := c0 :: lits0) in *.
    rewrite (effective_size lits Hb Hlen).
    destruct (Nat.eqb_spec (length (alpha lits)) 1) as [E1|E1].
    { exists HOne, [false], None. split; [reflexivity|]. split; [reflexivity|].
      intros v Hv. assert (Hv' : v < 256) by (unfold bytes_ok in Hb; rewrite Forall_forall in Hb; apply Hb; auto).
      cbn [huff_enc_call]. eexists. split; [reflexivity|]. split; [discriminate|].
      intros rest. cbn [huff_dec]. unfold w8. rewrite N.mod_small by auto. rewrite rd_int8 by auto. reflexivity. }
    assert (Hne : (1 <= length (alpha lits))%nat).
    { assert (In (N.to_nat c0) (alpha lits)) by (apply alpha_in; auto; rewrite N2Nat.id; left; auto).
      destruct (alpha lits); [destruct H|cbn; lia]. }
    clearbody lits.
    destruct H255 as [H255|Heq].
    2: { exfalso. pose proof (alpha_nodup lits) as Hnd. pose proof (fun i => proj1 (alpha_in lits i Hb Hlen)) as Hin.
      destruct (alpha lits) as [|a [|b l]]; cbn [length] in E1, Hne; try lia.
      inversion Hnd as [|? ? N1 _]; subst. apply N1. left.
      pose proof (Heq _ _ (Hin a (or_introl eq_refl)) (Hin b (or_intror (or_introl eq_refl)))). lia. }
    assert (Hub : (length (alpha lits) <= 255)%nat).
    { apply nodup_bound; [apply alpha_nodup|]. intros x Hx. eapply alpha_small; eauto. }
    destruct (count_ok lits Hb Hlen) as [HC1 HC2].
    assert (Hal : forall k, In k (alpha lits) -> (k < 256)%nat) by (apply alpha_256).
    destruct (table_gen L is_heap LOK (count_literals lits) (alpha lits) (alpha_eq lits)) as (t & Et & Ht).
    { lia. }
    { intros k Hk. rewrite HC2 by (apply Hal; auto).
      apply alpha_in in Hk; auto. apply (count_occ_In N.eq_dec) in Hk. unfold occ. lia. }
    { rewrite (map_ext_in _ (occ lits)).
      - pose proof (sum_occ lits (alpha lits) (alpha_nodup lits)). lia.
      - intros k Hk. rewrite HC2 by (apply Hal; auto). lia. }
    rewrite Et. cbn [obind].
    assert (Hks : Forall (fun k => k < 255)%nat (alpha lits)).
    { apply Forall_forall. intros k Hk. eapply alpha_small; eauto. }
    pose proof Ht as (P & Hl & psl & K1 & K2 & K3 & K4 & K5 & K6 & K7 & K8 & K9).
    assert (Hm : length (t_map t) = length (alpha lits)) by (rewrite (Permutation_length P), map_length; auto).
    destruct (to_eff_ok (t_map t)) as (te & T1 & T2 & T3); try lia.
    { eapply Permutation_NoDup; [apply Permutation_sym, P|]. apply FinFun.Injective_map_NoDup; [|apply alpha_nodup].
      intros x y Hxy; lia. }
    { apply Forall_forall. intros x Hx. apply (Permutation_in _ P), in_map_iff in Hx.
      destruct Hx as (k & <- & Hx). rewrite Forall_forall in Hks. apply Hks in Hx. lia. }
    rewrite T1. cbn [obind].
    destruct (table_code_ok t (alpha lits) [] Ht ltac:(lia) Hks) as (h & psl' & Q1 & Q2 & _).
    rewrite Q1. cbn [obind]. destruct (Nat.leb_spec (length (t_map t)) 1); [lia|].
    rewrite K6 in Q2. apply Some_inj in Q2. subst psl'.
    exists (HTab t te), (true :: h), (Some (t_map t, psl, first_codes (t_numl t))).
    split; [reflexivity|]. split.
    { intros rest. destruct (table_code_ok t (alpha lits) rest Ht ltac:(lia) Hks) as (h' & psl' & Q1' & Q2' & Q3').
      rewrite Q1 in Q1'. apply Some_inj in Q1'. subst h'. rewrite K6 in Q2'. apply Some_inj in Q2'. subst psl'. exact Q3'. }
    intros v Hv.
    assert (Hin : In v (t_map t)).
    { apply (Permutation_in _ (Permutation_sym P)), in_map_iff. exists (N.to_nat v). split; [lia|].
      apply alpha_in; auto. rewrite N2Nat.id. auto. }
    assert (Hv' : v < 256) by (unfold bytes_ok in Hb; rewrite Forall_forall in Hb; apply Hb; auto).
    apply (In_nth _ _ 0) in Hin. destruct Hin as (i & Hi & Ev).
    cbn [huff_enc_call huff_dec]. unfold huffman_encode. unfold w8. rewrite N.mod_small by auto.
    rewrite <- Ev. rewrite T3 by auto. cbn [obind].
    rewrite (nth_error_nth' (t_codewords t) 0) by lia. cbn [obind].
    rewrite (nth_error_nth' (t_lens t) 0%nat) by lia. cbn [obind]. eexists. split; [reflexivity|]. split.
    - assert (1 <= nth i (t_lens t) 0)%nat by (rewrite Forall_forall in K8; apply K8, nth_In; lia).
      destruct (nth i (t_lens t) 0%nat); [lia|discriminate].
    - intros rest. apply K9; lia.
  Qed.

  Lemma agree_call st d al v r : agree st d al -> call_loose (v, r) -> (r = RLit -> al v) ->
    exists b, huff_enc_call st (v, r) = Some b /\ b <> [] /\
      exists dv, (simple_ex BitC (v, r) -> dv = v) /\
        forall rest, huff_dec lrb r d (b ++ rest) = Some (dv, rest).
  Proof.
    intros Ha Hc Hr. destruct r as [mn mx| |].
    - apply (enc_dec_loose BitC v (RInt mn mx)); auto.
    - destruct (Ha v (Hr eq_refl)) as (b & E1 & E2 & E3). exists b. split; auto. split; auto. exists v. auto.
    - apply (enc_dec_loose BitC v RBit); auto.
  Qed.
  Definition lit_in (al : N -> Prop) (c : call) : Prop := snd c = RLit -> al (fst c).
  Lemma enc_calls_ex st d al cs : agree st d al -> Forall call_loose cs -> Forall (lit_in al) cs ->
    exists bs, huff_enc_calls st cs = Some bs.
  Proof.
    intros Ha Hc. induction Hc as [|[v r] cs H Hc IH]; intros Hl; cbn [huff_enc_calls]; eauto.
    inversion Hl as [|? ? H1 H2]; subst. destruct (agree_call st d al v r Ha H H1) as (b & -> & _).
    cbn [obind]. destruct (IH H2) as (bs & ->). cbn [obind]. eauto.
  Qed.

  Definition huff_rel (st : hstate) (d : hdec) (al : N -> Prop) (x : hdec * bis) (cs : list call) : Prop :=
    fst x = d /\ Forall call_loose cs /\ Forall (lit_in al) cs /\
    exists bs, huff_enc_calls st cs = Some bs /\ bisR (snd x) bs.

  Lemma huff_decodes st d al : agree st d al ->
    decodes_ex (huff_coder L) (simple_ex BitC) (huff_rel st d al).
  Proof.
    intros Ha. split; cbn [huff_coder c_eof c_dec c_st].
    - intros [d' s] (Hd & Hc & Hl & bs & E & HR). cbn in E. apply Some_inj in E; subst bs. apply (bisR_eof s []); auto.
    - intros [d' s] v r rest (Hd & Hc & Hl & bs & E & HR). cbn [fst snd] in *. subst d'.
      inversion Hc as [|? ? H1 H2]; subst. inversion Hl as [|? ? H3 H4]; subst.
      cbn [huff_enc_calls] in E. destruct (agree_call st d al v r Ha H1 H3) as (b & Eb & Hne & dv & Hex & Hdec).
      rewrite Eb in E. cbn [obind] in E. destruct (huff_enc_calls st rest) as [bs'|] eqn:Er; [|discriminate].
      cbn [obind] in E. apply Some_inj in E; subst bs. split.
      + rewrite (bisR_eofb _ _ HR). destruct b; [congruence|reflexivity].
      + pose proof (huff_dec_sim _ _ _ bis_sim r d _ _ HR) as G. rewrite Hdec in G.
        destruct (huff_dec bis_read_bit r d s) as [[v' s']|]; [|contradiction].
        destruct G as [G1 G2]; cbn in G1, G2; subst. cbn [obind]. exists dv, (d, s'); split; auto.
        split; auto. split; auto. split; auto. split; auto. exists bs'; auto.
  Qed.

  Lemma lits_of_in cs v : In (v, RLit) cs -> In v (lits_of cs).
  Proof. intros H. unfold lits_of. apply in_flat_map. exists (v, RLit). split; auto. left; auto. Qed.
  Lemma lits_of_bytes cs : Forall call_loose cs -> bytes_ok (lits_of cs).
  Proof.
    intros H. apply Forall_forall. intros x Hx. apply in_flat_map in Hx. destruct Hx as ([v r] & H1 & H2).
    rewrite Forall_forall in H. specialize (H _ H1). destruct r; cbn in H2; try tauto. destruct H2 as [<-|[]]. exact H.
  Qed.

  Lemma huff_coder_loose : coder_loose huff_lits (simple_ex BitC) (huff_coder L).
  Proof.
    intros cs Hc HP. destruct (init_agree (lits_of cs) (lits_of_bytes cs Hc) HP) as (st & h & d & E1 & E2 & Ha).
    set (al := fun v => In v (lits_of cs)) in *.
    assert (Hl : Forall (lit_in al) cs).
    { apply Forall_forall. intros [v r] Hin Hr. cbn in *. subst r. apply lits_of_in; auto. }
    destruct (enc_calls_ex st d al cs Ha Hc Hl) as (bs & E3).
    cbn [huff_coder c_enc c_open c_st]. unfold huff_bits. rewrite E1. cbn [obind]. rewrite E3. cbn [obind].
    pose proof (huff_open_sim _ _ _ bis_sim _ _ (bisR_file (h ++ bs))) as G. rewrite E2 in G.
    destruct (huff_open bis_read_bit (bis_open (bits_file (h ++ bs)))) as [[d' s]|] eqn:E4; [|contradiction].
    destruct G as [G1 G2]; cbn in G1, G2. subst d'.
    exists (bits_file (h ++ bs)), (d, s), (huff_rel st d al).
    split; auto. split; auto. split; [apply huff_decodes; auto|].
    split; auto. split; auto. split; auto. exists bs. auto.
  Qed.
End Loose.

Lemma loose_ok_lits P ex c : coder_loose P ex c -> (forall x, call_ok x -> ex x) -> coder_ok_lits P c.
Proof.
  intros H Hx cs Hc HP.
  assert (Hc' : Forall call_loose cs) by (revert Hc; apply Forall_impl; apply call_ok_loose).
  destruct (H cs Hc' HP) as (f & s & R & E1 & E2 & [D1 D2] & HR).
  exists f, s, (fun s cs => R s cs /\ Forall call_ok cs). split; auto. split; auto. split; [split|].
  - intros s0 [H0 _]. apply D1; auto.
  - intros s0 v r rest [H0 Hf]. inversion Hf as [|? ? F1 F2]; subst.
    destruct (D2 _ _ _ _ H0) as (He & dv & s' & Ed & Hdv & HR').
    split; auto. exists s'. rewrite call_ok_val by auto. cbn [fst]. rewrite <- Hdv by auto. auto.
  - auto.
Qed.
