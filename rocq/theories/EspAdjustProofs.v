(** ESP: the adjusted blocks have length 2 or 3 and still cover the string. *)
From Verif Require Import Base BitIO IntCodes Esp EspBlockProofs.

Definition is1 (b : block) : nat := if fst b =? 1 then 1 else 0.
Definition ones (bs : list block) : nat := list_sum (map is1 bs).
Definition nosing (bs : list block) : Prop := forall t, bs <> [(1, t)].
Lemma ones_cons b bs : ones (b :: bs) = is1 b + ones bs.
Proof. reflexivity. Qed.
Lemma ones_app a b : ones (a ++ b) = ones a + ones b.
Proof. unfold ones. rewrite map_app, list_sum_app. reflexivity. Qed.
Lemma ones_le bs : ones bs <= length bs.
Proof. induction bs as [|b bs IH]; [cbn; lia|]. rewrite ones_cons. unfold is1. cbn [length]. destruct (fst b =? 1); lia. Qed.

(** the state of the loops: queue and blocks still to be read *)
Definition inv (l : list block) : Prop := Forall blk l /\ ok23 l /\ nosing l.

Lemma merge_spec a b t : blk a -> blk b -> needs_merge a b = true -> 1 <= t <= 3 ->
  exists a' b' n, merge a b t = (a', b', n) /\ snd a' = t /\ snd b' = t /\
    2 <= fst a' <= 3 /\ 2 <= fst b' <= 3 /\
    ((n = 1 /\ a' = b' /\ fst a' = fst a + fst b) \/ (n = 2 /\ fst a' + fst b' = fst a + fst b)).
Proof.
  destruct a as [la ta], b as [lb tb]. unfold blk, needs_merge, merge. cbn [fst snd]. intros [Ha _] [Hb _] Hm Ht.
  destruct la as [|[|[|[|la]]]]; try lia; destruct lb as [|[|[|[|lb]]]]; try lia; try discriminate;
    cbn [Nat.add]; eexists _, _, _; (split; [reflexivity|]); cbn [fst snd]; repeat split; try lia; (left; split; [reflexivity|split; [reflexivity|lia]]) || (right; split; [reflexivity|lia]).
Qed.

Lemma needs_is1 a b : needs_merge a b = true -> 1 <= is1 a + is1 b.
Proof. unfold needs_merge, is1. destruct (fst a =? 1), (fst b =? 1); cbn; try discriminate; lia. Qed.
Lemma is1_big a : 2 <= fst a -> is1 a = 0.
Proof. intros H. unfold is1. destruct (Nat.eqb_spec (fst a) 1); lia. Qed.

(** a merge of two neighbours inside the list *)
Lemma merge_any x a b rest t : inv (x ++ a :: b :: rest) -> length x <= 1 -> 1 <= t <= 3 -> needs_merge a b = true ->
  (x <> [] -> t = 2 /\ snd a = 2) -> (t = 2 -> snd b = 2) ->
  exists m, (let '(a', b', n) := merge a b t in if n =? 1 then [b'] else [a'; b']) = m /\ 1 <= length m <= 2 /\
    inv (x ++ m ++ rest) /\ lens (x ++ m ++ rest) = lens (x ++ a :: b :: rest) /\
    ones (x ++ m ++ rest) < ones (x ++ a :: b :: rest) /\ length (x ++ m ++ rest) <= length (x ++ a :: b :: rest).
Proof.
  intros (HF & H23 & _) Hx Ht Hm Hx2 Ht2.
  assert (Ha : blk a) by (rewrite Forall_forall in HF; apply HF, in_app_iff; right; left; auto).
  assert (Hb : blk b) by (rewrite Forall_forall in HF; apply HF, in_app_iff; right; right; left; auto).
  destruct (merge_spec a b t Ha Hb Hm Ht) as (a' & b' & n & E & Ta & Tb & La & Lb & Hn). rewrite E.
  pose proof (needs_is1 a b Hm) as H1.
  assert (Ka : blk a') by (unfold blk; lia). assert (Kb : blk b') by (unfold blk; lia).
  assert (HFr : Forall blk rest).
  { rewrite Forall_forall in *. intros y Hy. apply HF, in_app_iff. right; right; right; auto. }
  assert (HFx : Forall blk x). { rewrite Forall_forall in *. intros y Hy. apply HF, in_app_iff. left; auto. }
  assert (R23 : ok23 (b' :: rest)).
  { destruct x as [|y [|z x]]; [| |cbn in Hx; lia]; cbn [app] in H23.
    - destruct rest as [|c rest]; [exact I|]. destruct H23 as (_ & B1 & B2). split; [|exact B2].
      intros [E1 E2]. apply B1. split; [|auto]. apply Ht2. lia.
    - destruct rest as [|c rest]; [exact I|]. destruct H23 as (_ & _ & B1 & B2). split; [|exact B2].
      intros [E1 E2]. apply B1. split; [|auto]. apply Ht2. lia. }
  assert (X23 : forall l c, snd c = t -> ok23 (c :: l) -> ok23 (x ++ c :: l)).
  { intros l c Hc Hl. destruct x as [|y [|z x]]; [auto| |cbn in Hx; lia]. cbn [app]. split; [|exact Hl].
    intros [_ E2]. destruct Hx2 as [E3 _]; [discriminate|]. lia. }
  destruct Hn as [(-> & -> & Hl)|(-> & Hl)]; cbn [Nat.eqb].
  - exists [b']. split; [reflexivity|]. split; [cbn; lia|]. cbn [app]. split; [|split; [|split]].
    + split; [|split].
      * apply Forall_app; split; auto.
      * apply X23; auto.
      * intros t0 E0. destruct x as [|y [|z x]]; try discriminate. cbn [app] in E0. injection E0 as E0 _. rewrite E0 in Lb. cbn in Lb. lia.
    + rewrite !lens_app, !lens_cons. lia.
    + rewrite !ones_app, !ones_cons.
      rewrite (is1_big b') by lia. lia.
    + rewrite !app_length. cbn [length]. lia.
  - exists [a'; b']. split; [reflexivity|]. split; [cbn; lia|]. cbn [app]. split; [|split; [|split]].
    + split; [|split].
      * apply Forall_app; split; auto.
      * apply X23; auto. split; [lia|exact R23].
      * intros t0 E0. destruct x as [|y [|z x]]; discriminate.
    + rewrite !lens_app, !lens_cons. lia.
    + rewrite !ones_app, !ones_cons.
      rewrite (is1_big b'), (is1_big a') by lia. lia.
    + rewrite !app_length. cbn [length]. lia.
Qed.

Definition step_post (v rd v' : list block) (again : bool) : Prop :=
  if again then v' <> [] /\ inv (v' ++ rd) /\ lens (v' ++ rd) = lens (v ++ rd) /\ ones (v' ++ rd) < ones (v ++ rd) /\
                length (v' ++ rd) <= length (v ++ rd)
  else v' = v /\ (exists e v'', v = e :: v'' /\ 2 <= fst e <= 3 /\ nosing (v'' ++ rd) /\ (v'' = [] -> rd = [])).

Lemma merge_front_eq a b rest t :
  merge_front a b rest t = (let '(a', b', n) := merge a b t in if n =? 1 then [b'] else [a'; b']) ++ rest.
Proof. unfold merge_front. destruct (merge a b t) as [[a' b'] n]. destruct (n =? 1); reflexivity. Qed.

Lemma adjust_front_ok v rd : inv (v ++ rd) -> v <> [] -> (rd <> [] -> length v = 3) ->
  existsb (fun e => fst e =? 1) v = true ->
  step_post v rd (fst (adjust_front v)) (snd (adjust_front v)).
Proof.
  intros Hi Hne Hrd He. destruct v as [|a [|b rest]]; [congruence| |].
  - exfalso. destruct rd; [|cbn in Hrd; assert (1 = 3) by (apply Hrd; discriminate); lia].
    cbn in He. destruct a as [la ta]. cbn [fst] in He. destruct Hi as (_ & _ & Hs). apply (Hs ta). cbn. f_equal. f_equal. rewrite orb_false_r in He. apply Nat.eqb_eq in He. auto.
  - assert (Hab : blk a /\ blk b) by (destruct Hi as [HF _]; cbn [app] in HF; inversion HF; subst; inversion H2; auto).
    assert (H23 : ~ (snd a = 2 /\ snd b = 3)) by (destruct Hi as (_ & H & _); cbn [app ok23] in H; tauto).
    destruct Hab as [Ha Hb]. unfold adjust_front.
    assert (MM : forall t, 1 <= t <= 3 -> needs_merge a b = true -> (t = 2 -> snd b = 2) -> step_post (a :: b :: rest) rd (merge_front a b rest t) true).
    { intros t Ht Hm Ht2. destruct (merge_any [] a b (rest ++ rd) t) as (m & Em & Lm & Im & Sm & Om & Nm); auto; try (cbn; lia); try congruence.
      rewrite merge_front_eq, Em. unfold step_post. rewrite <- app_assoc. cbn [app] in *. repeat split; try tauto; try apply Im.
      destruct m; [cbn in Lm; lia|discriminate]. }
    destruct (needs_merge a b) eqn:Hm; cbn [andb].
    + destruct ((snd a =? 2) && (snd b =? 2)) eqn:T2; cbn [fst snd].
      { apply andb_true_iff in T2. destruct T2 as [_ T2]. apply Nat.eqb_eq in T2. apply MM; auto. }
      destruct (Nat.eqb_spec (snd a) 3) as [T3|T3]; cbn [fst snd]; [apply MM; auto; lia|].
      destruct ((snd a =? 1) || (snd b =? 1)) eqn:T1; cbn [fst snd]; [apply MM; auto; lia|].
      exfalso. unfold blk in *. lia.
    + cbn [fst snd]. unfold needs_merge in Hm. unfold blk in *.
      replace (1 <? fst a) with true by lia. cbn [negb]. unfold step_post. split; [auto|].
      exists a, (b :: rest). split; [auto|]. split; [lia|]. split; [|discriminate].
      intros t E. cbn [app] in E. injection E as E _. rewrite E in Hm. cbn in Hm. lia.
Qed.

Lemma adjust_step_ok v rd : inv (v ++ rd) -> v <> [] -> (rd <> [] -> length v = 3) ->
  step_post v rd (fst (adjust_step v)) (snd (adjust_step v)).
Proof.
  intros Hi Hne Hrd. unfold adjust_step.
  destruct (existsb (fun e => fst e =? 1) v) eqn:He; cbn [negb].
  - destruct v as [|x [|a [|b [|c v]]]]; try (apply adjust_front_ok; auto).
    destruct (needs_merge a b && (snd a =? 2) && (snd b =? 2)) eqn:T; [|apply adjust_front_ok; auto].
    assert (Hm : needs_merge a b = true /\ snd a = 2 /\ snd b = 2).
    { apply andb_true_iff in T. destruct T as [T ?]. apply andb_true_iff in T. destruct T. repeat split; try apply Nat.eqb_eq; auto. }
    destruct Hm as (Hm & Ta & Tb).
    destruct (merge_any [x] a b rd 2) as (m & Em & Lm & Im & Sm & Om & Nm); auto; try lia.
    destruct (merge a b 2) as [[a' b'] n] eqn:E. cbn [fst snd].
    assert (Hq : (if n =? 1 then [x; a'] else [x; a'; b']) = x :: m).
    { assert (blk a /\ blk b) as [Ka Kb].
      { destruct Hi as [HF _]. cbn [app] in HF. inversion HF; subst. inversion H2; subst. inversion H4; auto. }
      destruct (merge_spec a b 2 Ka Kb Hm) as (a2 & b2 & n2 & E2 & _ & _ & _ & _ & Hn); [lia|].
      rewrite E in E2. injection E2 as <- <- <-. rewrite <- Em. destruct Hn as [(-> & -> & _)|(-> & _)]; reflexivity. }
    rewrite Hq. unfold step_post. split; [discriminate|]. cbn [app] in *. auto.
  - cbn [fst snd]. unfold step_post. split; [auto|]. destruct v as [|e v]; [congruence|].
    assert (H1 : forall b, In b (e :: v) -> 2 <= fst b <= 3).
    { intros b Hb. destruct Hi as [HF _]. rewrite Forall_forall in HF. specialize (HF b ltac:(apply in_app_iff; auto)). unfold blk in HF.
      destruct (Nat.eqb_spec (fst b) 1) as [E|E]; [|lia].
      assert (existsb (fun e => fst e =? 1) (e :: v) = true); [|congruence]. apply existsb_exists. exists b. split; [auto|]. apply Nat.eqb_eq; auto. }
    exists e, v. split; [auto|]. split; [apply H1; left; auto|]. split.
    + intros t E. destruct v as [|b v].
      * cbn [app] in E. destruct rd; [discriminate|]. cbn in Hrd. assert (1 = 3) by (apply Hrd; discriminate). lia.
      * cbn [app] in E. injection E as E _. specialize (H1 b ltac:(right; left; auto)). rewrite E in H1. cbn in H1. lia.
    + intros ->. destruct rd; [auto|]. cbn in Hrd. assert (1 = 3) by (apply Hrd; discriminate). lia.
Qed.

Lemma fill_ok q rd : length q <= 3 -> let '(q1, rd1) := fill q rd in q1 ++ rd1 = q ++ rd /\ (rd1 <> [] -> length q1 = 3) /\ length q1 <= 3 /\ (q <> [] \/ rd <> [] -> q1 <> []).
Proof.
  intros Hq. unfold fill. split; [rewrite <- app_assoc, firstn_skipn; reflexivity|]. rewrite app_length, firstn_length. split; [|split; [lia|]].
  - intros Hr. destruct (Nat.le_gt_cases (length rd) (3 - length q)) as [L|L]; [|lia].
    rewrite skipn_all2 in Hr by auto. congruence.
  - intros H E. apply app_eq_nil in E. destruct E as [-> E]. destruct rd; [tauto|discriminate].
Qed.

Lemma adjust_step_len v : length v <= 3 -> Forall blk v -> length (fst (adjust_step v)) <= 3.
Proof.
  intros Hl HF. unfold adjust_step.
  assert (MF : forall a b rest t, length (merge_front a b rest t) <= length (a :: b :: rest)).
  { intros a b rest t. unfold merge_front. destruct (merge a b t) as [[a' b'] n]. destruct (n =? 1); cbn [length]; lia. }
  assert (AF : forall v, length v <= 3 -> length (fst (adjust_front v)) <= 3).
  { intros [|a [|b rest]] H; cbn [adjust_front fst]; auto.
    destruct (_ && _); [cbn [fst]; etransitivity; [apply MF|auto]|].
    destruct (_ && _); [cbn [fst]; etransitivity; [apply MF|auto]|].
    destruct (_ && _); [cbn [fst]; etransitivity; [apply MF|auto]|]. auto. }
  destruct (negb _); [auto|]. destruct v as [|x [|a [|b [|c v]]]]; try (apply AF; auto).
  destruct (_ && _); [|apply AF; auto].
  destruct (merge a b 2) as [[a' b'] n]. destruct (n =? 1); cbn [fst length]; lia.
Qed.

Lemma adjust_inner_ok : forall fuel q rd, ones (q ++ rd) < fuel -> inv (q ++ rd) -> q <> [] -> length q <= 3 ->
  exists e q'' rd', adjust_inner fuel q rd = Some (e :: q'', rd') /\ 2 <= fst e <= 3 /\
    lens (e :: q'' ++ rd') = lens (q ++ rd) /\ inv (q'' ++ rd') /\ (q'' = [] -> rd' = []) /\ length (e :: q'' ++ rd') <= length (q ++ rd) /\ length q'' <= 3.
Proof.
  induction fuel as [|fuel IH]; intros q rd Hf Hi Hne Hl; [lia|].
  cbn [adjust_inner]. pose proof (fill_ok q rd Hl) as F. destruct (fill q rd) as [q1 rd1]. destruct F as (F1 & F2 & F3 & F4).
  specialize (F4 (or_introl Hne)). rewrite <- F1 in *.
  pose proof (adjust_step_ok q1 rd1 Hi F4 F2) as P.
  assert (Hl' : length (fst (adjust_step q1)) <= 3).
  { apply adjust_step_len; auto. destruct Hi as [HF _]. apply Forall_app in HF. tauto. }
  destruct (adjust_step q1) as [q' again]. cbn [fst snd] in *. destruct again; cbn [step_post] in P.
  - destruct P as (P1 & P2 & P3 & P4 & P5). destruct (IH q' rd1) as (e & q'' & rd' & E1 & E2 & E3 & E4 & E5 & E6 & E7); auto; [lia|].
    exists e, q'', rd'. rewrite E1. split; [auto|]. split; [auto|]. split; [lia|]. repeat split; try apply E4; auto. lia.
  - destruct P as (-> & e & v'' & -> & P1 & P2 & P3). exists e, v'', rd1. split; [reflexivity|]. split; [auto|]. split; [reflexivity|].
    split; [|split; [auto|split; [cbn [app]; lia|cbn [length] in F3; lia]]]. destruct Hi as (A & B & _). cbn [app] in A, B. split; [inversion A; auto|]. split; [|auto].
    destruct (v'' ++ rd1); [exact I|]. apply B.
Qed.

Lemma adjust_outer_ok : forall fuel q rd, length (q ++ rd) < fuel -> inv (q ++ rd) -> (q = [] -> rd = []) -> length q <= 3 ->
  exists bs, adjust_outer fuel q rd = Some bs /\ lens bs = lens (q ++ rd) /\ Forall (fun b => 2 <= fst b <= 3) bs.
Proof.
  induction fuel as [|fuel IH]; intros q rd Hf Hi Hq Hl; [lia|].
  destruct q as [|x q].
  - rewrite (Hq eq_refl). exists []. cbn. auto.
  - cbn [adjust_outer]. set (q0 := x :: q) in *.
    destruct (adjust_inner_ok (S (length q0 + length rd)) q0 rd) as (e & q'' & rd' & E1 & E2 & E3 & E4 & E5 & E6 & E7); auto.
    { pose proof (ones_le (q0 ++ rd)). rewrite app_length in *. lia. }
    { discriminate. }
    rewrite E1. cbn [obind]. cbn [length] in E6.
    destruct (IH q'' rd') as (bs & B1 & B2 & B3); auto; [lia|].
    rewrite B1. cbn [obind]. exists (e :: bs). split; [reflexivity|]. split; [|constructor; auto].
    rewrite lens_cons, B2. rewrite <- E3, lens_cons. reflexivity.
Qed.

Theorem adjust_ok bs : Forall blk bs -> ok23 bs -> 2 <= lens bs ->
  exists bs', adjust_blocks bs = Some bs' /\ lens bs' = lens bs /\ Forall (fun b => 2 <= fst b <= 3) bs'.
Proof.
  intros HF H23 Hl. unfold adjust_blocks. destruct (Nat.ltb_spec (length bs) 2) as [L|L].
  - exists bs. split; [reflexivity|]. split; [reflexivity|]. destruct bs as [|b [|c bs]]; [constructor| |cbn [length] in L; lia].
    constructor; [|constructor]. inversion HF; subst. unfold blk in *. unfold lens in Hl. cbn in Hl. lia.
  - pose proof (fill_ok [] bs ltac:(cbn; lia)) as F. destruct (fill [] bs) as [q rd]. destruct F as (F1 & F2 & F3 & F4).
    cbn [app] in F1. rewrite <- F1 in *. apply adjust_outer_ok; auto.
    + split; [auto|]. split; [auto|]. intros t E. rewrite E in L. cbn in L. lia.
    + intros ->. destruct rd; [auto|]. exfalso. assert (length (@nil block) = 3) by (apply F2; discriminate). discriminate.
Qed.
