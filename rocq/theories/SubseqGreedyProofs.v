(** The greedy strategy gives a partition into monotone subsequences. *)
From Coq Require Import Sorted Permutation.
From Verif Require Import Base Succinct SubseqSpec SuccinctProofs SubseqRoundProofs.

Definition gfold (sis : list nat) (rest acc : list nat) : list nat :=
  fold_left (fun acc x => match acc with a :: _ => if nth a sis 0 <? nth x sis 0 then x :: acc else acc | [] => acc end) rest acc.
Lemma gwalk_ok sis link stop : forall rest fuel c a acc, path link (c :: rest) stop -> ~ In stop rest -> (forall x, In x rest -> x < length sis) ->
  Forall (fun x => x < length sis) (a :: acc) -> length rest < fuel -> gwalk fuel sis link stop c (a :: acc) = Some (gfold sis rest (a :: acc)).
Proof.
  induction rest as [|x rest IH]; intros fuel c a acc Hp Hs Hr HF Hf; (destruct fuel as [|fuel]; [lia|]); cbn [length] in Hf;
    cbn [path hd] in Hp; destruct Hp as [Hp1 Hp2]; cbn [gwalk]; rewrite Hp1; cbn [obind].
  - rewrite Nat.eqb_refl. reflexivity.
  - destruct (Nat.eqb_spec x stop) as [->|Hx]; [exfalso; apply Hs; left; auto|]. cbn [hd_error obind]. inversion HF as [|? ? Ha HF']; subst.
    assert (Hxl : x < length sis) by (apply Hr; left; auto).
    rewrite (nth_error_nth' sis 0 Hxl), (nth_error_nth' sis 0 Ha). cbn [obind]. unfold gfold. cbn [fold_left]. fold (gfold sis rest (if nth a sis 0 <? nth x sis 0 then x :: a :: acc else a :: acc)).
    assert (Hs' : ~ In stop rest) by (intros H; apply Hs; right; auto).
    assert (Hr' : forall y, In y rest -> y < length sis) by (intros y Hy; apply Hr; right; auto).
    destruct (nth a sis 0 <? nth x sis 0); apply IH; auto; try lia.
Qed.
Lemma gfold_ok (T : nat -> nat -> Prop) sis : (forall x y z, T x y -> T y z -> T x z) -> forall rest acc, acc <> [] ->
  StronglySorted T rest -> (forall x y, In x acc -> In y rest -> T x y) ->
  StronglySorted (fun a b => T b a /\ nth b sis 0 < nth a sis 0) acc ->
  let r := gfold sis rest acc in
  r <> [] /\ (forall x, In x r -> In x acc \/ In x rest) /\ StronglySorted (fun a b => T b a /\ nth b sis 0 < nth a sis 0) r.
Proof.
  intros HT. induction rest as [|x rest IH]; intros acc Hne Hs Hc Ha; [cbn; auto|].
  inversion Hs as [|? ? Hs1 Hs2]; subst. rewrite Forall_forall in Hs2. destruct acc as [|a acc]; [congruence|].
  unfold gfold. cbn [fold_left]. destruct (Nat.ltb_spec (nth a sis 0) (nth x sis 0)) as [H|H].
  - destruct (IH (x :: a :: acc)) as (I1 & I2 & I3); auto; [discriminate| | |].
    + intros u v [<-|Hu] Hv; [auto|]. apply Hc; [auto|right; auto].
    + constructor; [auto|]. apply Forall_forall. intros u Hu. split; [apply Hc; [auto|left; auto]|].
      destruct Hu as [<-|Hu]; [auto|]. inversion Ha as [|? ? _ Ha2]; subst. rewrite Forall_forall in Ha2. specialize (Ha2 u Hu). lia.
    + split; [exact I1|]. split; [|exact I3]. intros u Hu. destruct (I2 u Hu) as [[<-|Hu']|Hu']; [right; left; auto|left; auto|right; right; auto].
  - destruct (IH (a :: acc)) as (I1 & I2 & I3); auto.
    + intros u v Hu Hv. apply Hc; [auto|right; auto].
    + split; [exact I1|]. split; [|exact I3]. intros u Hu. destruct (I2 u Hu); [left; auto|right; right; auto].
Qed.

(** ** the doubly linked list *)
Definition dll (n : nat) (fl : list nat * list nat) (R : list nat) : Prop :=
  length (fst fl) = n + 2 /\ length (snd fl) = n + 2 /\
  path (snd fl) (n :: R) (n + 1) /\ path (fst fl) (n + 1 :: rev R) n.
Lemma path_remove ll A p x B z : NoDup (A ++ p :: x :: B) -> p < length ll -> path ll (A ++ p :: x :: B) z ->
  path (upd (upd ll p (hd z B)) x x) (A ++ p :: B) z /\ nth_error ll x = Some (hd z B).
Proof.
  intros Hn Hp H. apply path_app in H. destruct H as (H1 & H2). cbn [path hd] in H2. destruct H2 as (H2 & H3 & H4). cbn [hd] in *. split; [|auto].
  assert (Hx : ~ In x (A ++ p :: B)).
  { change (A ++ p :: x :: B) with (A ++ [p] ++ x :: B) in Hn. rewrite app_assoc in Hn. apply NoDup_remove_2 in Hn. rewrite <- app_assoc in Hn. exact Hn. }
  assert (Hpn : ~ In p (A ++ x :: B)) by (apply NoDup_remove_2 in Hn; auto).
  apply path_upd; [auto|]. apply path_app. cbn [path hd]. split; [apply path_upd; [intros Hi; apply Hpn; apply in_or_app; auto|auto]|].
  split; [apply nth_error_upd_eq; auto|]. apply path_upd; [|auto]. intros Hi. apply Hpn. apply in_or_app. right. right. auto.
Qed.
Lemma cons_snoc {A} (x : A) l : exists a p, x :: l = a ++ [p] /\ hd x (rev l) = p.
Proof.
  destruct (exists_last (l := x :: l)) as (a & p & E); [discriminate|]. exists a, p. split; [auto|].
  apply (f_equal (@rev A)) in E. rewrite rev_app_distr in E. cbn [rev app] in E. apply (f_equal (hd x)) in E. rewrite hd_app in E. exact E.
Qed.
Lemma gremove_ok n fl A x B : (forall y, In y (A ++ x :: B) -> y < n) -> NoDup (A ++ x :: B) -> dll n fl (A ++ x :: B) ->
  exists fl', gremove fl x = Some fl' /\ dll n fl' (A ++ B).
Proof.
  intros Hlt Hnd (L1 & L2 & P1 & P2). destruct fl as [pv nx]. cbn [fst snd] in *. unfold gremove.
  destruct (cons_snoc n A) as (A0 & p & EA & Ep). destruct (cons_snoc (n + 1) (rev B)) as (B0 & q & EB & Eq). rewrite rev_involutive in Eq.
  assert (N1 : NoDup (n :: A ++ x :: B)) by (constructor; [intros H; apply Hlt in H; lia|auto]).
  assert (N2 : NoDup (n + 1 :: rev (A ++ x :: B))).
  { constructor; [rewrite <- in_rev; intros H; apply Hlt in H; lia|]. apply NoDup_rev. auto. }
  assert (E1 : n :: A ++ x :: B = A0 ++ p :: x :: B) by (change (n :: A ++ x :: B) with ((n :: A) ++ x :: B); rewrite EA, <- app_assoc; reflexivity).
  assert (E2 : n + 1 :: rev (A ++ x :: B) = B0 ++ q :: x :: rev A).
  { rewrite rev_app_distr. cbn [rev]. rewrite <- app_assoc. cbn [app]. change (n + 1 :: rev B ++ x :: rev A) with ((n + 1 :: rev B) ++ x :: rev A). rewrite EB, <- app_assoc. reflexivity. }
  rewrite E1 in P1, N1. rewrite E2 in P2, N2.
  assert (Hpn : p < n + 2).
  { assert (In p (n :: A)) by (rewrite EA; apply in_or_app; right; left; auto). destruct H as [<-|H]; [lia|]. specialize (Hlt p). rewrite in_app_iff in Hlt. intuition lia. }
  assert (Hqn : q < n + 2).
  { assert (In q (n + 1 :: rev B)) by (rewrite EB; apply in_or_app; right; left; auto). destruct H as [<-|H]; [lia|]. apply in_rev in H. specialize (Hlt q). rewrite in_app_iff in Hlt. cbn [In] in Hlt. intuition lia. }
  destruct (path_remove nx A0 p x B (n + 1) N1 ltac:(lia) P1) as [Q1 Q2].
  destruct (path_remove pv B0 q x (rev A) n N2 ltac:(lia) P2) as [Q3 Q4].
  rewrite Ep in *. rewrite Eq in *. rewrite Q4. cbn [obind]. rewrite Q2. cbn [obind]. eexists. split; [reflexivity|].
  unfold dll. cbn [fst snd]. rewrite !upd_length. split; [auto|]. split; [auto|]. split.
  - replace (n :: A ++ B) with (A0 ++ p :: B); [exact Q1|]. change (n :: A ++ B) with ((n :: A) ++ B). rewrite EA, <- app_assoc. reflexivity.
  - replace (n + 1 :: rev (A ++ B)) with (B0 ++ q :: rev A); [exact Q3|]. rewrite rev_app_distr. change (n + 1 :: rev B ++ rev A) with ((n + 1 :: rev B) ++ rev A). rewrite EB, <- app_assoc. reflexivity.
Qed.
Lemma sorted_nodup R : StronglySorted lt R -> NoDup R.
Proof. induction 1 as [|x R H IH HF]; constructor; auto. intros Hx. rewrite Forall_forall in HF. specialize (HF x Hx). lia. Qed.
Lemma sorted_remove (P : nat -> nat -> Prop) A x B : StronglySorted P (A ++ x :: B) -> StronglySorted P (A ++ B).
Proof.
  induction A as [|a A IH]; cbn [app]; intros H; inversion H as [|? ? H1 H2]; subst; [auto|]. constructor; [auto|].
  rewrite Forall_app in *. destruct H2 as [H2 H3]. split; [auto|]. inversion H3; auto.
Qed.
Lemma gremove_all_ok n : forall s fl R, (forall y, In y R -> y < n) -> StronglySorted lt R -> NoDup s -> incl s R -> dll n fl R ->
  exists fl' R', gremove_all fl s = Some fl' /\ dll n fl' R' /\ StronglySorted lt R' /\ (forall y, In y R' <-> In y R /\ ~ In y s) /\ length R' + length s = length R.
Proof.
  induction s as [|x s IH]; intros fl R Hlt Hs Hn Hi Hd.
  - exists fl, R. cbn. intuition.
  - inversion Hn as [|? ? Hx Hn']; subst. destruct (in_split x R) as (A & B & ->); [apply Hi; left; auto|].
    pose proof (sorted_nodup _ Hs) as Hnd. destruct (gremove_ok n fl A x B Hlt Hnd Hd) as (fl1 & E1 & D1).
    destruct (IH fl1 (A ++ B)) as (fl2 & R' & E2 & D2 & S2 & H2 & L2); auto.
    + intros y Hy. apply Hlt. rewrite in_app_iff in *. cbn [In]. tauto.
    + eapply sorted_remove; eauto.
    + intros y Hy. assert (In y (A ++ x :: B)) by (apply Hi; right; auto). rewrite in_app_iff in *. cbn [In] in H. intuition congruence.
    + exists fl2, R'. cbn [gremove_all]. rewrite E1. cbn [obind]. split; [auto|]. split; [auto|]. split; [auto|]. split.
      * intros y. rewrite H2. apply NoDup_remove_2 in Hnd. rewrite !in_app_iff in *. cbn [In]. intuition (subst; auto).
      * rewrite !app_length in *. cbn [length]. lia.
Qed.

Lemma path_in ll q z y : path ll q z -> In y q -> y < length ll.
Proof. induction q as [|x q IH]; intros H Hy; [contradiction|]. destruct H as [H1 H2]. destruct Hy as [<-|Hy]; [|auto]. apply nth_error_Some. congruence. Qed.
Lemma sorted_rev_gt R : StronglySorted lt R -> StronglySorted gt (rev R).
Proof.
  induction 1 as [|x R H IH HF]; cbn [rev]; [constructor|].
  assert (G : forall a z, StronglySorted gt a -> Forall (fun y => y > z) a -> StronglySorted gt (a ++ [z])).
  { clear. induction a as [|y a IH]; intros z Ha HF; cbn [app]; [repeat constructor|]. inversion Ha; subst. inversion HF; subst. constructor; auto.
    apply Forall_app. auto. }
  apply G; [auto|]. apply Forall_rev. auto.
Qed.
Lemma sorted_nodup_gen (P : nat -> nat -> Prop) l : (forall x, ~ P x x) -> StronglySorted P l -> NoDup l.
Proof. intros HP. induction 1 as [|x R H IH HF]; constructor; auto. intros Hx. rewrite Forall_forall in HF. specialize (HF x Hx). eapply HP; eauto. Qed.

Lemma greedy_loop_ok sis : forall fuel R fl dpi b, (forall y, In y R -> y < length sis) -> StronglySorted lt R -> dll (length sis) fl R ->
  partial_ok sis R dpi b -> length R < fuel ->
  exists dpi' b', greedy_loop fuel sis fl dpi b = Some (dpi', b') /\ subseq_ok sis dpi' b'.
Proof.
  induction fuel as [|fuel IH]; intros R fl dpi b Hlt Hs Hd Hp Hf; [lia|]. pose proof Hd as (L1 & L2 & P1 & P2). cbn [greedy_loop].
  set (n := length sis) in *. cbn [path] in P1, P2. destruct P1 as [P1 P1']. destruct P2 as [P2 P2']. rewrite P1. cbn [obind].
  destruct R as [|x R].
  - cbn [hd]. rewrite Nat.eqb_refl. eexists _, _. split; [reflexivity|]. apply round_end. auto.
  - cbn [hd]. assert (Hx : x < n) by (apply Hlt; left; auto). destruct (Nat.eqb_spec x (n + 1)); [lia|]. rewrite P2. cbn [obind].
    pose proof (sorted_rev_gt _ Hs) as Hg. destruct (rev (x :: R)) as [|z Z] eqn:EZ.
    { apply (f_equal (@length nat)) in EZ. rewrite rev_length in EZ. discriminate. }
    cbn [hd]. assert (HZ : forall y, In y (z :: Z) <-> In y (x :: R)) by (intros y; rewrite <- EZ; symmetry; apply in_rev).
    assert (LZ : length Z = length R) by (apply (f_equal (@length nat)) in EZ; rewrite rev_length in EZ; cbn [length] in EZ; lia).
    assert (LR : length (x :: R) <= n).
    { apply sorted_nodup in Hs as Hn. assert (Hi : incl (x :: R) (seq 0 n)) by (intros y Hy; apply in_seq; specialize (Hlt y Hy); lia).
      apply NoDup_incl_length in Hi; auto. rewrite seq_length in Hi. auto. }
    cbn [length] in LR. inversion Hs as [|? ? Hs1 Hs2]; subst. inversion Hg as [|? ? Hg1 Hg2]; subst.
    rewrite (gwalk_ok sis (snd fl) (n + 1) R); [| auto | | |constructor; auto|fold n; lia].
    2: { intros H. assert (n + 1 < n) by (apply Hlt; right; auto). lia. }
    2: { intros y Hy. apply Hlt. right. auto. }
    cbn [obind]. rewrite (gwalk_ok sis (fst fl) n Z); [|auto| | |constructor; [|constructor]|fold n; lia].
    2: { intros H. assert (n < n) by (apply Hlt, HZ; right; auto). lia. }
    2: { intros y Hy. apply Hlt, HZ. right. auto. }
    2: { apply Hlt, HZ. left. auto. }
    cbn [obind]. set (inc := gfold sis R [x]). set (dec := gfold sis Z [z]).
    assert (GI : inc <> [] /\ (forall y, In y inc -> In y [x] \/ In y R) /\ StronglySorted (fun a b => b < a /\ nth b sis 0 < nth a sis 0) inc).
    { apply (gfold_ok lt sis Nat.lt_trans R [x]); auto; [discriminate| |repeat constructor]. intros u v [<-|[]] Hv. rewrite Forall_forall in Hs2. auto. }
    assert (GD : dec <> [] /\ (forall y, In y dec -> In y [z] \/ In y Z) /\ StronglySorted (fun a b => b > a /\ nth b sis 0 < nth a sis 0) dec).
    { apply (gfold_ok gt sis) with (rest := Z) (acc := [z]); auto; [intros; lia|discriminate| |repeat constructor]. intros u v [<-|[]] Hv. rewrite Forall_forall in Hg2. auto. }
    clearbody inc dec. destruct GI as (I1 & I2 & I3). destruct GD as (D1 & D2 & D3).
    set (up := length dec <=? length inc). set (s := if up then rev inc else dec).
    assert (Gs : s <> [] /\ incl s (x :: R) /\ NoDup s /\ mono sis s (negb up)).
    { unfold s. destruct up; cbn [negb]; repeat split.
      - intros E. apply I1. apply (f_equal (@rev nat)) in E. rewrite rev_involutive in E. exact E.
      - intros y Hy. apply in_rev in Hy. destruct (I2 y Hy) as [[<-|[]]|H]; [left; auto|right; auto].
      - apply NoDup_rev. eapply sorted_nodup_gen; [|exact I3]. cbn. intros; lia.
      - intros i j Hi Hj Hij. apply in_rev in Hi, Hj. destruct (sorted_pairs _ _ I3 i j Hi Hj) as [E|[[E1 E2]|[E1 E2]]]; lia.
      - auto.
      - intros y Hy. apply HZ. destruct (D2 y Hy) as [[<-|[]]|H]; [left; auto|right; auto].
      - eapply sorted_nodup_gen; [|exact D3]. cbn. intros; lia.
      - intros i j Hi Hj Hij. destruct (sorted_pairs _ _ D3 i j Hi Hj) as [E|[[E1 E2]|[E1 E2]]]; lia. }
    clearbody s. destruct Gs as (S1 & S2 & S3 & S4).
    destruct (gremove_all_ok n s fl (x :: R) Hlt Hs S3 S2 Hd) as (fl' & R' & E' & D' & S' & H' & L'). rewrite E'. cbn [obind].
    destruct (label_ok (length b) s dpi) as (B1 & B2 & B3). { intros y Hy. destruct Hp as (Hp & _). rewrite Hp. apply Hlt, S2, Hy. }
    apply (IH R'); auto.
    + intros y Hy. apply Hlt. apply H' in Hy. tauto.
    + eapply (round_ok sis (x :: R) R' s dpi); eauto.
      * rewrite B1. apply Hp.
    + destruct s as [|s0 s]; [congruence|]. cbn [length] in L', Hf. lia.
Qed.

Lemma path_seq ll z : forall m a, (forall i, i < m -> nth_error ll (a + i) = Some (if i =? m - 1 then z else a + i + 1)) -> path ll (seq a m) z.
Proof.
  induction m as [|m IH]; intros a H; cbn [seq path]; [auto|]. split.
  - specialize (H 0 ltac:(lia)). rewrite Nat.add_0_r in H. rewrite H. destruct m; [reflexivity|]. cbn [seq hd]. f_equal. cbn. lia.
  - apply IH. intros i Hi. specialize (H (S i) ltac:(lia)). replace (a + S i) with (S a + i) in H by lia. rewrite H. f_equal.
    destruct (Nat.eqb_spec i (m - 1)), (Nat.eqb_spec (S i) (S m - 1)); lia.
Qed.
Lemma path_rev_seq ll z : forall m, (forall i, i < m -> nth_error ll i = Some (if i =? 0 then z else i - 1)) -> path ll (rev (seq 0 m)) z.
Proof.
  induction m as [|m IH]; intros H; [exact I|]. rewrite seq_S, rev_app_distr. cbn [rev app plus path]. split.
  - rewrite (H m) by lia. destruct m as [|m]; [reflexivity|]. rewrite seq_S, rev_app_distr. cbn. f_equal. lia.
  - apply IH. intros i Hi. apply H. lia.
Qed.
Theorem sub_greedy_ok : sub_ok sub_greedy.
Proof.
  intros sis Hp Hne _. unfold sub_greedy. set (n := length sis). assert (Hn : 1 <= n) by (unfold n; destruct sis; [congruence|cbn; lia]).
  assert (Nn : forall (f : nat -> nat) i t, i < n -> nth_error (map f (seq 0 n) ++ t) i = Some (f i)).
  { intros f i t Hi. rewrite nth_error_app1 by (rewrite map_length, seq_length; auto). rewrite nth_error_map, nth_error_nth' with (d := 0) by (rewrite seq_length; auto).
    rewrite seq_nth by auto. reflexivity. }
  assert (Nt : forall (f : nat -> nat) i t, nth_error (map f (seq 0 n) ++ t) (n + i) = nth_error t i).
  { intros f i t. rewrite nth_error_app2 by (rewrite map_length, seq_length; lia). rewrite map_length, seq_length. f_equal. lia. }
  apply (greedy_loop_ok sis (S n) (seq 0 n)).
  - intros y Hy. apply in_seq in Hy. fold n. lia.
  - apply seq_sorted.
  - fold n. unfold dll, fl_prev0, fl_next0. cbn [fst snd]. rewrite !app_length, !map_length, !seq_length. cbn [length]. split; [lia|]. split; [lia|].
    cbn [path]. split; split.
    + rewrite <- (Nat.add_0_r n) at 3. rewrite Nt. cbn [nth_error]. destruct n; [lia|]. reflexivity.
    + apply path_seq. intros i Hi. cbn [plus]. rewrite Nn by auto. destruct (i =? n - 1); f_equal; lia.
    + rewrite Nt. cbn [nth_error]. destruct n as [|m]; [lia|]. rewrite seq_S, rev_app_distr. cbn. f_equal. lia.
    + apply path_rev_seq. intros i Hi. rewrite Nn by auto. reflexivity.
  - apply round_start. apply repeat_length.
  - rewrite seq_length. lia.
Qed.
