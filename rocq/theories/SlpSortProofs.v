(** The renaming of slp_dep_sort: left-hand sides ascend, the expansion is the same. *)
From Verif Require Import Base BitIO IntCodes IntCodesProofs Esp EspSpec EspBlockProofs EspProofs SlpSort.

Lemma nth_firstn_lt {A} (l : list A) m i d : i < m -> nth i (firstn m l) d = nth i l d.
Proof. revert m i. induction l as [|x l IH]; intros [|m] [|i] H; cbn; try lia; auto. apply IH. lia. Qed.
Lemma nth_repeat_lt {A} (x d : A) n i : i < n -> nth i (repeat x n) d = x.
Proof. revert i. induction n as [|n IH]; intros [|i] H; cbn; try lia; auto. apply IH. lia. Qed.
Lemma filter_length_le {A} (f : A -> bool) l : length (filter f l) <= length l.
Proof. induction l as [|x l IH]; cbn; [lia|]. destruct (f x); cbn [length]; lia. Qed.
Lemma NoDup_app_intro {A} (l m : list A) : NoDup l -> NoDup m -> (forall x, In x l -> ~ In x m) -> NoDup (l ++ m).
Proof.
  induction 1 as [|x l Hx Hl IH]; intros Hm H; cbn [app]; [auto|]. constructor.
  - rewrite in_app_iff. intros [H1|H1]; [auto|]. apply (H x); [left; auto|auto].
  - apply IH; auto. intros y Hy. apply H. right; auto.
Qed.

Fixpoint chains (next : list nat) (l : list nat) : Prop :=
  match l with
  | [] => True
  | [x] => nth_error next x = Some x
  | x :: (y :: _) as r => nth_error next x = Some y /\ x <> y /\ chains next r
  end.
Lemma chains_cons next x y r : chains next (x :: y :: r) <-> nth_error next x = Some y /\ x <> y /\ chains next (y :: r).
Proof. reflexivity. Qed.

Section Sort.
  Variable rules : list (N * N).
  Let n := length rules.
  Definition lft (c : nat) : nat := match nth_error rules (c - 256) with Some (a, _) => N.to_nat a | None => 0 end.
  Hypothesis Hord : ordered rules.

  Lemma lft_lt c : 256 <= c < n + 256 -> lft c < c.
  Proof.
    intros H. unfold lft. destruct (nth_error rules (c - 256)) as [[a b]|] eqn:E; [|lia].
    destruct (Hord _ _ _ E). lia.
  Qed.

  (** ** The children of a node, in ascending order *)
  Definition kids (lo e : nat) : list nat := filter (fun c => lft c =? e) (seq lo (n + 256 - lo)).
  Lemma kids_in lo e c : In c (kids lo e) <-> (lo <= c < n + 256 /\ lft c = e).
  Proof. unfold kids. rewrite filter_In, in_seq, Nat.eqb_eq. lia. Qed.
  Lemma kids_step lo e : lo < n + 256 -> kids lo e = if lft lo =? e then lo :: kids (S lo) e else kids (S lo) e.
  Proof.
    intros H. unfold kids. replace (n + 256 - lo) with (S (n + 256 - S lo)) by lia. cbn [seq filter].
    destruct (lft lo =? e); reflexivity.
  Qed.
  Lemma kids_end e : kids (n + 256) e = [].
  Proof. unfold kids. rewrite Nat.sub_diag. reflexivity. Qed.
  Lemma kids_nodup lo e : NoDup (kids lo e).
  Proof. apply NoDup_filter, seq_NoDup. Qed.

  (** the arrays hold the lists of children *)
  Definition holds (fn : list nat * list nat) (e : nat) (l : list nat) : Prop :=
    match l with
    | [] => nth_error (fst fn) e = Some e
    | x :: _ => nth_error (fst fn) e = Some x /\ x <> e /\ chains (snd fn) l
    end.

  Lemma chains_upd next i v l : ~ In i l -> chains next l -> chains (upd next i v) l.
  Proof.
    induction l as [|x l IH]; intros Hi H; [auto|]. cbn [In] in Hi.
    destruct l as [|y l]; [cbn [chains] in *; rewrite nth_error_upd_ne; auto|].
    rewrite chains_cons in *.
    - destruct H as (H1 & H2 & H3). rewrite nth_error_upd_ne by auto. split; [auto|]. split; [auto|]. apply IH; tauto.
  Qed.

  Lemma build_ok : forall k first next, k <= n -> length first = n + 256 -> length next = n + 256 ->
    (forall e, e < n + 256 -> holds (first, next) e (kids (k + 256) e)) ->
    (forall c, c < k + 256 -> nth_error next c = Some c) ->
    exists fn, build k rules (first, next) = Some fn /\ length (snd fn) = n + 256 /\
      forall e, e < n + 256 -> holds fn e (kids 256 e).
  Proof.
    induction k as [|j IH]; intros first next Hk Lf Ln HH Hn.
    - exists (first, next). cbn [build]. auto.
    - cbn [build]. assert (Hj : j < length rules) by (unfold n in *; lia).
      destruct (nth_error rules j) as [[a b]|] eqn:E; [|apply nth_error_None in E; lia]. cbn [obind].
      pose proof (Hord _ _ _ E) as [Ha _].
      assert (El : lft (j + 256) = N.to_nat a). { unfold lft. replace (j + 256 - 256) with j by lia. rewrite E. reflexivity. }
      set (e := N.to_nat a) in *. set (v := j + 256) in *.
      assert (He : e < v) by (unfold e, v; lia). assert (Hv : v < n + 256) by (unfold v; lia).
      assert (Hk' : forall e', kids (j + 256) e' = if lft v =? e' then v :: kids (S v) e' else kids (S v) e').
      { intros e'. apply kids_step. exact Hv. }
      replace (S j + 256) with (S v) in * by (unfold v; lia).
      pose proof (HH e ltac:(lia)) as He1.
      assert (Hnv : nth_error next v = Some v) by (apply Hn; lia).
      unfold append.
      assert (Hf : exists f, nth_error first e = Some f /\ (f = e <-> kids (S v) e = []) /\ (kids (S v) e <> [] -> exists r, kids (S v) e = f :: r)).
      { destruct (kids (S v) e) as [|x r] eqn:Ek; cbn [holds fst] in He1.
        - exists e. split; [auto|]. split; [tauto|congruence].
        - destruct He1 as (A & B & _). exists x. split; [auto|]. split; [split; [congruence|discriminate]|]. intros _. exists r. reflexivity. }
      destruct Hf as (f & Ef & Hf1 & Hf2). rewrite Ef. cbn [obind].
      assert (Hfne : forall e' x, e' <> e -> nth_error first e' = Some x -> nth_error (upd first e v) e' = Some x).
      { intros. rewrite nth_error_upd_ne; auto. }
      assert (Hfe : nth_error (upd first e v) e = Some v) by (apply nth_error_upd_eq; lia).
      assert (Hnot : forall e', ~ In v (kids (S v) e')) by (intros e' H; apply kids_in in H; lia).
      destruct (Nat.eqb_spec f e) as [Efe|Efe].
      + cbn [obind]. apply (IH (upd first e v) next); [lia|rewrite upd_length; auto|auto| |intros; apply Hn; unfold v; lia].
        intros e' He'. fold v. rewrite Hk', El. destruct (Nat.eqb_spec e e') as [<-|Ne].
        * rewrite (proj1 Hf1 Efe). cbn [holds fst snd chains]. split; [auto|]. split; [lia|auto].
        * specialize (HH e' He'). destruct (kids (S v) e') as [|x r]; cbn [holds fst snd] in *; [apply Hfne; auto|].
          destruct HH as (A & B & C). split; [apply Hfne; auto|auto].
      + rewrite (proj2 (Nat.ltb_lt v (length next))) by lia. cbn [obind].
        apply (IH (upd first e v) (upd next v f)); [lia|rewrite upd_length; auto|rewrite upd_length; auto| |intros c Hc; rewrite nth_error_upd_ne by lia; apply Hn; unfold v in *; lia].
        intros e' He'. fold v. rewrite Hk', El. destruct (Nat.eqb_spec e e') as [<-|Ne].
        * destruct Hf2 as [r Er]; [rewrite <- Hf1; auto|].
          assert (Hvf : v <> f). { intros ->. apply (Hnot e). rewrite Er. left; auto. }
          rewrite Er in *. cbn [holds fst snd]. split; [auto|]. split; [lia|].
          cbn [holds fst snd] in He1. destruct He1 as (_ & _ & Hc).
          apply chains_cons. split; [apply nth_error_upd_eq; lia|]. split; [auto|].
          apply chains_upd; [rewrite <- Er; apply Hnot|exact Hc].
        * specialize (HH e' He'). pose proof (Hnot e') as Hv'. destruct (kids (S v) e') as [|x r]; cbn [holds fst snd] in *; [apply Hfne; auto|].
          destruct HH as (A & B & C). split; [apply Hfne; auto|]. split; [auto|]. apply chains_upd; auto.
  Qed.

  Lemma chain_ok next : forall l x fuel, chains next (x :: l) -> length l < fuel -> chain fuel next x = Some l.
  Proof.
    induction l as [|y l IH]; intros x fuel Hc Hf; (destruct fuel as [|fuel]; [lia|]); cbn [chain].
    - cbn [chains] in Hc. rewrite Hc. cbn [obind]. rewrite Nat.eqb_refl. reflexivity.
    - rewrite chains_cons in Hc. destruct Hc as (A & B & C). rewrite A. cbn [obind]. destruct (Nat.eqb_spec y x); [congruence|].
      rewrite (IH y fuel) by (auto; cbn [length] in Hf; lia). reflexivity.
  Qed.

  Lemma for_all_ok fn e : length (snd fn) = n + 256 -> e < n + 256 -> holds fn e (kids 256 e) -> for_all fn e = Some (kids 256 e).
  Proof.
    intros Ln He H. destruct fn as [first next]. unfold for_all.
    assert (Hlen : length (kids 256 e) <= n).
    { unfold kids. etransitivity; [apply filter_length_le|]. rewrite seq_length. lia. }
    destruct (kids 256 e) as [|x l]; cbn [holds fst snd] in *.
    - rewrite H. cbn [obind]. rewrite Nat.eqb_refl. reflexivity.
    - destruct H as (A & B & C). rewrite A. cbn [obind]. destruct (Nat.eqb_spec x e); [congruence|].
      rewrite (chain_ok next l x) by (auto; rewrite Ln; cbn [length] in Hlen; lia). reflexivity.
  Qed.

  (** ** The queue.  [o]: everything ever put into it, [p]: how many were taken. *)
  Definition binv (o : list nat) (p : nat) (q : list nat) : Prop :=
    p <= length o /\ NoDup o /\ (forall c, In c o -> c < n + 256) /\
    firstn 256 o = seq 0 256 /\ length q + 256 = length o /\
    (forall k, k < length q -> 256 <= nth (256 + k) o 0 /\ nth k q 0 < p /\ lft (nth (256 + k) o 0) = nth (nth k q 0) o 0) /\
    (forall k, S k < length q -> nth k q 0 <= nth (S k) q 0) /\
    (forall k c, k < p -> 256 <= c < n + 256 -> lft c = nth k o 0 -> In c o).

  Lemma binv_len o p q : binv o p q -> length o <= n + 256.
  Proof.
    intros (_ & Hnd & Hlt & _). rewrite <- (seq_length (n + 256) 0). apply NoDup_incl_length; auto.
    intros c Hc. apply in_seq. specialize (Hlt c Hc). lia.
  Qed.

  Lemma nth_app_l {A} (l m : list A) k d : k < length l -> nth k (l ++ m) d = nth k l d.
  Proof. intros. apply app_nth1; auto. Qed.

  Lemma binv_step o p q : binv o p q -> p < length o ->
    binv (o ++ kids 256 (nth p o 0)) (S p) (q ++ repeat p (length (kids 256 (nth p o 0)))).
  Proof.
    intros (Hp & Hnd & Hlt & Hf & Hq & HQ & Hs & Hc) Hpl. set (e := nth p o 0). set (cs := kids 256 e).
    assert (Hcs : forall c, In c cs <-> 256 <= c < n + 256 /\ lft c = e) by (intros; apply kids_in).
    assert (Hnew : forall c, In c o -> ~ In c cs).
    { intros c Hin Hin2. apply Hcs in Hin2. destruct Hin2 as [Hr El].
      destruct (In_nth o c 0 Hin) as (k & Hk & Ek).
      destruct (Nat.lt_ge_cases k 256) as [L|L].
      - assert (nth k (firstn 256 o) 0 = c) by (rewrite nth_firstn_lt by auto; auto).
        rewrite Hf, seq_nth in H by auto. lia.
      - destruct (HQ (k - 256) ltac:(lia)) as (H1 & H2 & H3). replace (256 + (k - 256)) with k in * by lia. rewrite Ek, El in H3.
        unfold e in H3. assert (p = nth (k - 256) q 0); [|lia]. apply (NoDup_nth o 0); auto; lia. }
    unfold binv. rewrite !app_length, repeat_length. split; [lia|]. split; [|split; [|split; [|split; [|split; [|split]]]]].
    - apply NoDup_app_intro; auto. apply kids_nodup.
    - intros c Hin. apply in_app_iff in Hin. destruct Hin as [Hin|Hin]; [auto|]. apply Hcs in Hin. lia.
    - rewrite firstn_app. replace (256 - length o) with 0 by lia. cbn [firstn]. rewrite app_nil_r. auto.
    - lia.
    - intros k Hk. destruct (Nat.lt_ge_cases k (length q)) as [L|L].
      + destruct (HQ k L) as (H1 & H2 & H3). rewrite !(nth_app_l q), !(nth_app_l o) by lia. auto.
      + rewrite (app_nth2 q) by auto. rewrite (app_nth2 o) by lia. rewrite nth_repeat_lt by lia.
        assert (Hin : In (nth (256 + k - length o) cs 0) cs) by (apply nth_In; lia).
        apply Hcs in Hin. rewrite nth_app_l by auto. fold e. lia.
    - intros k Hk. destruct (Nat.lt_ge_cases (S k) (length q)) as [L|L].
      + rewrite !nth_app_l by lia. auto.
      + rewrite (app_nth2 q _ _ (n:=S k)) by auto. rewrite nth_repeat_lt by lia.
        destruct (Nat.lt_ge_cases k (length q)) as [L2|L2].
        * rewrite nth_app_l by auto. destruct (HQ k L2). lia.
        * rewrite app_nth2 by auto. rewrite nth_repeat_lt by lia. lia.
    - intros k c Hk Hr El. apply in_app_iff. destruct (Nat.eq_dec k p) as [->|Ne].
      + right. apply Hcs. rewrite nth_app_l in El by auto. auto.
      + left. apply (Hc k); auto; [lia|]. rewrite nth_app_l in El by lia. auto.
  Qed.

  Definition ren_ok (o : list nat) (p : nat) (rename : list nat) : Prop :=
    length rename = n /\ forall k, 256 <= k < p -> nth_error rename (nth k o 0 - 256) = Some (k - 256).

  Lemma binv_small o p q k : binv o p q -> k < length o -> (k < 256 -> nth k o 0 = k) /\ (256 <= k -> 256 <= nth k o 0 < n + 256).
  Proof.
    intros (Hp & Hnd & Hlt & Hf & Hq & HQ & _) Hk. split; intros H.
    - rewrite <- (nth_firstn_lt o 256) by auto. rewrite Hf, seq_nth by auto. reflexivity.
    - destruct (HQ (k - 256) ltac:(lia)) as (H1 & _). replace (256 + (k - 256)) with k in H1 by lia.
      split; [auto|]. apply Hlt, nth_In; auto.
  Qed.

  Lemma bfs_ok fn : length (snd fn) = n + 256 -> (forall e, e < n + 256 -> holds fn e (kids 256 e)) ->
    forall fuel o p q rename, binv o p q -> n + 256 - p <= fuel -> ren_ok o p rename ->
    exists o' q' rename', bfs fuel fn (skipn p o) p rename = Some rename' /\ binv o' (length o') q' /\ ren_ok o' (length o') rename'.
  Proof.
    intros Hl Hh. induction fuel as [|fuel IH]; intros o p q rename Hb Hf Hr.
    - assert (skipn p o = []) as E. { apply skipn_all2. pose proof (binv_len _ _ _ Hb). lia. }
      rewrite E. exists o, q, rename. assert (p = length o) as <-. { pose proof (binv_len _ _ _ Hb). destruct Hb. lia. } auto.
    - destruct (Nat.lt_ge_cases p (length o)) as [L|L].
      2:{ rewrite skipn_all2 by auto. exists o, q, rename. assert (p = length o) as <- by (destruct Hb; lia). auto. }
      rewrite (skipn_cons_nth o p 0 L). cbn [bfs].
      assert (He : nth p o 0 < n + 256) by (destruct Hb as (_ & _ & H & _); apply H, nth_In; auto).
      rewrite (for_all_ok fn _ Hl He (Hh _ He)). cbn [obind].
      pose proof (binv_step _ _ _ Hb L) as Hb'. destruct (binv_small _ _ _ p Hb L) as [S1 S2].
      assert (Es : skipn (S p) o ++ kids 256 (nth p o 0) = skipn (S p) (o ++ kids 256 (nth p o 0))).
      { rewrite skipn_app. replace (S p - length o) with 0 by lia. reflexivity. }
      rewrite Es. destruct Hr as [Hr1 Hr2].
      assert (Hr' : forall r, length r = n -> (forall k, 256 <= k < S p -> nth_error r (nth k o 0 - 256) = Some (k - 256)) ->
         ren_ok (o ++ kids 256 (nth p o 0)) (S p) r).
      { intros r Hlr H. split; [auto|]. intros k Hk. rewrite nth_app_l by lia. auto. }
      destruct (Nat.ltb_spec (nth p o 0) 256) as [L1|L1].
      + apply (IH _ _ _ _ Hb'); [lia|]. apply Hr'; auto. intros k Hk. apply Hr2.
        assert (p < 256); [|lia]. destruct (Nat.lt_ge_cases p 256) as [?|L2]; [auto|]. specialize (S2 L2). lia.
      + rewrite (proj2 (Nat.ltb_lt _ _)) by lia. apply (IH _ _ _ _ Hb'); [lia|]. apply Hr'; [rewrite upd_length; auto|].
        intros k Hk. destruct (Nat.eq_dec k p) as [->|Ne].
        * apply nth_error_upd_eq. lia.
        * rewrite nth_error_upd_ne; [apply Hr2; lia|]. intros E. apply Ne.
          destruct (binv_small _ _ _ k Hb ltac:(lia)) as [_ T2]. specialize (T2 ltac:(lia)).
          destruct Hb as (_ & Hnd & _). symmetry. apply (NoDup_nth o 0); auto; lia.
  Qed.

  Lemma binv_all o q : binv o (length o) q -> forall c, c < n + 256 -> exists k, k < length o /\ nth k o 0 = c.
  Proof.
    intros Hb c. induction c as [c IH] using lt_wf_ind. intros Hc.
    destruct (Nat.lt_ge_cases c 256) as [L|L].
    - assert (256 <= length o) by (destruct Hb as (_ & _ & _ & _ & H & _); lia).
      exists c. split; [lia|]. apply (binv_small _ _ _ c Hb); auto; lia.
    - pose proof (lft_lt c ltac:(lia)) as Hl. destruct (IH (lft c) Hl ltac:(lia)) as (k & Hk & Ek).
      apply In_nth. destruct Hb as (_ & _ & _ & _ & _ & _ & _ & H). apply (H k); auto; lia.
  Qed.
  Lemma binv_full o q : binv o (length o) q -> length o = n + 256.
  Proof.
    intros Hb. apply Nat.le_antisymm; [eapply binv_len; eauto|].
    rewrite <- (seq_length (n + 256) 0). apply NoDup_incl_length; [apply seq_NoDup|].
    intros c Hc. apply in_seq in Hc. destruct (binv_all o q Hb c ltac:(lia)) as (k & Hk & <-). apply nth_In; auto.
  Qed.

  Lemma binv_init : binv (seq 0 256) 0 [].
  Proof.
    unfold binv. cbn [length]. rewrite seq_length. split; [lia|]. split; [apply seq_NoDup|]. split; [|split; [|split; [|split; [|split]]]].
    - intros c Hc. apply in_seq in Hc. lia.
    - apply firstn_all2. rewrite seq_length. lia.
    - reflexivity.
    - intros; lia.
    - intros; lia.
    - intros; lia.
  Qed.

  Lemma ids_nth k m : k < m -> nth_error (seq 0 m) k = Some k.
  Proof. intros H. rewrite (nth_error_nth' _ 0) by (rewrite seq_length; auto). rewrite seq_nth by auto. reflexivity. Qed.

  (** ** The new rules *)
  Section Result.
    Variables (o q rename : list nat).
    Hypothesis Hb : binv o (length o) q.
    Hypothesis Hr : ren_ok o (length o) rename.

    Lemma ren_spec e : (e < 256 + N.of_nat n)%N -> exists k, k < length o /\ nth k o 0 = N.to_nat e /\ ren rename e = Some (N.of_nat k) /\ (k < 256 <-> (e < 256)%N).
    Proof.
      intros He. destruct (binv_all o q Hb (N.to_nat e) ltac:(lia)) as (k & Hk & Ek). exists k. split; [auto|]. split; [auto|].
      destruct (binv_small _ _ _ k Hb Hk) as [S1 S2]. unfold ren.
      destruct (N.ltb_spec 255 e) as [L|L].
      - assert (256 <= k). { destruct (Nat.lt_ge_cases k 256) as [L2|L2]; [|auto]. specialize (S1 L2). lia. }
        destruct Hr as [_ H2]. rewrite <- Ek. rewrite H2 by lia. cbn [obind]. split; [f_equal; lia|lia].
      - assert (k < 256). { destruct (Nat.lt_ge_cases k 256) as [L2|L2]; [auto|]. specialize (S2 L2). lia. }
        rewrite S1 in Ek by auto. split; [f_equal; lia|lia].
    Qed.

    Lemma rename_spec i : i < n -> exists k, k < n /\ nth (256 + k) o 0 = 256 + i /\ nth_error rename i = Some k.
    Proof.
      intros Hi. destruct (binv_all o q Hb (256 + i) ltac:(lia)) as (k & Hk & Ek).
      destruct (binv_small _ _ _ k Hb Hk) as [S1 S2].
      assert (256 <= k) by (destruct (Nat.lt_ge_cases k 256) as [L2|L2]; [specialize (S1 L2); lia|auto]).
      exists (k - 256). pose proof (binv_full o q Hb). replace (256 + (k - 256)) with k by lia. split; [lia|]. split; [auto|].
      destruct Hr as [_ H2]. specialize (H2 k ltac:(lia)). rewrite Ek in H2. replace (256 + i - 256) with i in H2 by lia. auto.
    Qed.

    Definition mapped (out : list (N * N)) (i : nat) : Prop :=
      forall a b, nth_error rules i = Some (a, b) -> exists k a' b', nth_error rename i = Some k /\ ren rename a = Some a' /\ ren rename b = Some b' /\
        nth_error out k = Some (a', b').

    Lemma move_ok : forall rs i out, skipn i rules = rs -> i <= n -> length out = n -> (forall j, j < i -> mapped out j) ->
      exists out', move_rules rename i rs out = Some out' /\ length out' = n /\ forall j, j < n -> mapped out' j.
    Proof.
      induction rs as [|[a b] rs IH]; intros i out Hs Hi Hl Hm.
      - exists out. split; [reflexivity|]. split; [auto|]. intros j Hj. apply Hm.
        assert (length (skipn i rules) = 0) by (rewrite Hs; auto). rewrite skipn_length in H. unfold n in *. lia.
      - cbn [move_rules].
        assert (Hin : i < n). { unfold n. assert (length (skipn i rules) = S (length rs)) by (rewrite Hs; auto). rewrite skipn_length in H. lia. }
        assert (Ei : nth_error rules i = Some (a, b)). { rewrite <- hd_skipn, Hs. reflexivity. }
        pose proof (Hord _ _ _ Ei) as [Ha Hb'].
        destruct (rename_spec i Hin) as (k & Hk & _ & Ek). rewrite Ek. cbn [obind].
        destruct (ren_spec a ltac:(lia)) as (ka & _ & _ & Ra & _). rewrite Ra. cbn [obind].
        destruct (ren_spec b ltac:(lia)) as (kb & _ & _ & Rb & _). rewrite Rb. cbn [obind].
        rewrite (proj2 (Nat.ltb_lt _ _)) by lia. apply IH.
        + rewrite (skipn_cons_nth rules i (0%N, 0%N)) in Hs by auto. injection Hs as _ Hs. auto.
        + lia.
        + rewrite upd_length; auto.
        + intros j Hj. destruct (Nat.eq_dec j i) as [->|Ne].
          * intros x y E. rewrite Ei in E. apply Some_inj in E. injection E as <- <-. exists k, (N.of_nat ka), (N.of_nat kb).
            repeat split; auto. apply nth_error_upd_eq. lia.
          * intros x y E. destruct (Hm j ltac:(lia) x y E) as (k' & a' & b' & E1 & E2 & E3 & E4). exists k', a', b'. repeat split; auto.
            rewrite nth_error_upd_ne; auto. intros <-. apply Ne.
            assert (Hjn : j < n) by lia. destruct (rename_spec j Hjn) as (kj & _ & Oj & Ej). destruct (rename_spec i Hin) as (ki & _ & Oi & Ei').
            assert (kj = k) by congruence. assert (ki = k) by congruence. subst. lia.
    Qed.

    Lemma new_rule out k : (forall j, j < n -> mapped out j) -> k < n ->
      exists a b ka kb, nth_error rules (nth (256 + k) o 0 - 256) = Some (a, b) /\ nth_error out k = Some (N.of_nat ka, N.of_nat kb) /\
        ka < length o /\ kb < length o /\ nth ka o 0 = N.to_nat a /\ nth kb o 0 = N.to_nat b /\ ka = nth k q 0.
    Proof.
      intros Hm Hk. pose proof (binv_full o q Hb) as Hlen. destruct (binv_small _ _ _ (256 + k) Hb ltac:(lia)) as [_ S2]. specialize (S2 ltac:(lia)).
      set (c := nth (256 + k) o 0) in *. destruct (nth_error rules (c - 256)) as [[a b]|] eqn:E; [|apply nth_error_None in E; unfold n in *; lia].
      destruct (Hm (c - 256) ltac:(lia) a b E) as (k' & a' & b' & E1 & E2 & E3 & E4).
      pose proof (Hord _ _ _ E) as [Ha Hb'].
      destruct (ren_spec a ltac:(lia)) as (ka & Ka1 & Ka2 & Ra & _). destruct (ren_spec b ltac:(lia)) as (kb & Kb1 & Kb2 & Rb & _).
      assert (k' = k). { destruct Hr as [_ H2]. specialize (H2 (256 + k) ltac:(lia)). fold c in H2. rewrite E1 in H2. apply Some_inj in H2. lia. }
      subst k'. exists a, b, ka, kb. split; [auto|]. split; [congruence|]. split; [auto|]. split; [auto|]. split; [auto|]. split; [auto|].
      destruct Hb as (_ & Hnd & _ & _ & Hq & HQ & _). destruct (HQ k ltac:(lia)) as (_ & H2 & H3). fold c in H3.
      unfold lft in H3. rewrite E in H3. apply (NoDup_nth o 0); auto. lia.
    Qed.

    Lemma derive_same out : length out = n -> (forall j, j < n -> mapped out j) -> forall fuel k, k < length o ->
      derive_rec fuel out (N.of_nat k) = derive_rec fuel rules (N.of_nat (nth k o 0)).
    Proof.
      intros Hl Hm. pose proof (binv_full o q Hb) as Hlen. induction fuel as [|fuel IH]; intros k Hk; cbn [derive_rec];
        destruct (binv_small _ _ _ k Hb Hk) as [S1 S2]; destruct (Nat.lt_ge_cases k 256) as [L|L].
      - rewrite S1 by auto. reflexivity.
      - specialize (S2 L). rewrite !(proj2 (N.ltb_ge _ _)) by lia. reflexivity.
      - rewrite S1 by auto. rewrite !(proj2 (N.ltb_lt _ _)) by lia. reflexivity.
      - specialize (S2 L). rewrite !(proj2 (N.ltb_ge _ _)) by lia.
        destruct (new_rule out (k - 256) Hm ltac:(lia)) as (a & b & ka & kb & E1 & E2 & K1 & K2 & K3 & K4 & _).
        replace (256 + (k - 256)) with k in E1 by lia.
        replace (N.to_nat (N.of_nat k - 256)) with (k - 256) by lia.
        replace (N.to_nat (N.of_nat (nth k o 0) - 256)) with (nth k o 0 - 256) by lia.
        rewrite E1, E2. cbn [obind]. rewrite (IH ka K1), (IH kb K2), K3, K4, !N2Nat.id. reflexivity.
    Qed.
  End Result.
End Sort.

(** [l] ascends from [last] on *)
Fixpoint asc (last : N) (l : list N) : Prop :=
  match l with [] => True | e :: l => (last <= e)%N /\ asc e l end.
Lemma asc_nth l : forall last, (forall x, hd_error l = Some x -> (last <= x)%N) ->
  (forall k, S k < length l -> (nth k l 0 <= nth (S k) l 0)%N) -> asc last l.
Proof.
  induction l as [|e l IH]; intros last H1 H2; [exact I|]. split; [apply H1; reflexivity|]. apply IH.
  - intros x Hx. destruct l as [|y l]; [discriminate|]. cbn in Hx. apply Some_inj in Hx. subst y. apply (H2 0). cbn. lia.
  - intros k Hk. apply (H2 (S k)). cbn [length]. lia.
Qed.

Theorem dep_sort_ok g text : slp_ok g text ->
  exists g', slp_dep_sort g = Some g' /\ s_empty g' = s_empty g /\ length (s_rules g') = length (s_rules g) /\
    asc 0 (map fst (s_rules g')) /\
    Forall (fun r => fst r < 256 + N.of_nat (length (s_rules g)) /\ snd r < 256 + N.of_nat (length (s_rules g)))%N (s_rules g') /\
    (s_empty g = false -> s_root g' < 256 + N.of_nat (length (s_rules g)))%N /\
    (s_root g' < 256 <-> s_root g < 256)%N /\ (s_root g = 0 -> s_root g' = 0)%N /\
    derive_text g' = Some text.
Proof.
  intros Hok. pose proof (slp_derive g text Hok) as Hd. destruct Hok as (Ho & Hsz & Hg).
  set (rules := s_rules g) in *. set (n := length rules) in *.
  assert (Hroot : (s_root g < 256 + N.of_nat n)%N).
  { destruct (s_empty g); [destruct Hg as (_ & _ & ->); lia|]. destruct Hg as (_ & _ & H). exact H. }
  unfold slp_dep_sort. fold rules n.
  destruct (build_ok rules Ho n (seq 0 (n + 256)) (seq 0 (n + 256))) as (fn & E1 & L1 & H1); try (rewrite seq_length; auto); auto.
  { intros e He. fold n. rewrite kids_end. cbn [holds fst]. apply ids_nth; auto. }
  { intros c Hc. apply ids_nth. auto. }
  rewrite E1. cbn [obind].
  destruct (bfs_ok rules fn L1 H1 (n + 256) (seq 0 256) 0 [] (repeat 0 n)) as (o & q & rename & E2 & Hb & Hr).
  { apply binv_init. } { fold n. lia. } { split; [apply repeat_length|]. intros; lia. }
  change (skipn 0 (seq 0 256)) with (seq 0 256) in E2. rewrite E2. cbn [obind].
  destruct (move_ok rules Ho o q rename Hb Hr rules 0 (repeat (0%N, 0%N) n)) as (out & E3 & L3 & Hm); auto; try lia.
  { apply repeat_length. }
  rewrite E3. cbn [obind].
  destruct (ren_spec rules Ho o q rename Hb Hr (s_root g) Hroot) as (kr & Kr1 & Kr2 & Er & Kr3). rewrite Er. cbn [obind].
  pose proof (binv_full rules Ho o q Hb) as Hlen. fold n in Hlen.
  eexists; split; [reflexivity|]. cbn [s_rules s_root s_empty]. split; [reflexivity|]. split; [exact L3|].
  assert (Hout : forall k, k < n -> exists ka kb, nth_error out k = Some (N.of_nat ka, N.of_nat kb) /\ ka < length o /\ kb < length o /\ ka = nth k q 0).
  { intros k Hk. destruct (new_rule rules Ho o q rename Hb Hr out k Hm Hk) as (a & b & ka & kb & _ & X & Y & Z & _ & _ & W). exists ka, kb. auto. }
  fold n in L3.
  assert (Efst : map fst out = map N.of_nat q).
  { assert (Lq : length q = n) by (destruct Hb as (_ & _ & _ & _ & H & _); lia).
    apply (nth_ext _ _ 0%N 0%N); [rewrite !map_length; lia|]. intros k Hk. rewrite map_length, L3 in Hk.
    destruct (Hout k Hk) as (ka & kb & E & _ & _ & ->).
    rewrite (nth_indep _ 0%N (fst (0%N, 0%N))) by (rewrite map_length; lia). rewrite map_nth, (nth_error_nth _ _ _ E). cbn [fst].
    rewrite (nth_indep _ 0%N (N.of_nat 0)) by (rewrite map_length; lia). rewrite map_nth. reflexivity. }
  split; [|split; [|split; [|split; [|split]]]].
  - rewrite Efst. apply asc_nth; [intros; lia|]. rewrite map_length. intros k Hk.
    assert (NM : forall j, nth j (map N.of_nat q) 0%N = N.of_nat (nth j q 0)) by (intros j; exact (map_nth N.of_nat q 0 j)).
    rewrite !NM. destruct Hb as (_ & _ & _ & _ & _ & _ & H & _). specialize (H k Hk). lia.
  - apply Forall_forall. intros r Hin. destruct (In_nth_error _ _ Hin) as [k Ek].
    assert (Hk : k < n). { rewrite <- L3. apply nth_error_Some. congruence. }
    destruct (Hout k Hk) as (ka & kb & E & A & B & _). rewrite Ek in E. apply Some_inj in E. subst r. cbn [fst snd]. lia.
  - intros _. lia.
  - lia.
  - intros E0. rewrite E0 in Kr2, Kr3. assert (K : kr < 256) by (apply Kr3; lia).
    destruct (binv_small rules o (length o) q kr Hb Kr1) as [S1 _]. rewrite S1 in Kr2 by auto. lia.
  - unfold derive_text in *. cbn [s_empty s_rules s_root]. destruct (s_empty g); [auto|].
    rewrite L3. rewrite (derive_same rules Ho o q rename Hb Hr out L3 Hm _ kr Kr1), Kr2, N2Nat.id. exact Hd.
Qed.
