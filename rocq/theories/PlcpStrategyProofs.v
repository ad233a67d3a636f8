(** The strategy "plcp" delivers a factorisation. *)
From Coq Require Import Sorting.Sorted.
From Verif Require Import Base LZSS LZSSSpec SASpec SACompProofs Strategies StrategySpec StrategyProofs PlcpStrategy.
Local Open Scope nat_scope.

Definition alive (hs : list handle) : list (nat * nat) :=
  flat_map (fun h => match h with Some a => [a] | None => [] end) hs.
Lemma alive_app a b : alive (a ++ b) = alive a ++ alive b.
Proof. apply flat_map_app. Qed.
Lemma alive_rev a : alive (rev a) = rev (alive a).
Proof.
  induction a as [|[x|] a IH]; cbn [rev alive flat_map]; auto.
  - rewrite alive_app, IH. reflexivity.
  - rewrite alive_app, IH. cbn. rewrite app_nil_r. reflexivity.
Qed.
Lemma alive_length a : length (alive a) <= length a.
Proof. induction a as [|[x|] a IH]; unfold alive in *; cbn; lia. Qed.
Lemma alive_map {A} (f : A -> handle) l b : In b (alive (map f l)) <-> exists a, In a l /\ f a = Some b.
Proof.
  unfold alive. rewrite in_flat_map. split.
  - intros (h & Hh & Hb). apply in_map_iff in Hh as (a & <- & Ha). exists a. split; auto.
    destruct (f a); [destruct Hb as [->|[]]; auto|destruct Hb].
  - intros (a & Ha & E). exists (f a). split; [apply in_map; auto|]. rewrite E. left. auto.
Qed.

Definition endof (a : nat * nat) : nat := fst a + snd a.
Definition R (i : nat) (a b : nat * nat) : Prop := fst a < fst b /\ endof a <= endof b /\ endof a < i.

Lemma SS_app {A} (P : A -> A -> Prop) l1 l2 : StronglySorted P (l1 ++ l2) <->
  StronglySorted P l1 /\ StronglySorted P l2 /\ forall a b, In a l1 -> In b l2 -> P a b.
Proof.
  induction l1 as [|x l1 IH]; cbn [app].
  - split; [intros H; split; [constructor|split; [auto|intros a b []]]|tauto].
  - split.
    + intros H. apply StronglySorted_inv in H as [H F]. apply IH in H as (H1 & H2 & H3). rewrite Forall_forall in F.
      split; [|split; auto].
      * constructor; auto. apply Forall_forall. intros y Hy. apply F, in_app_iff. auto.
      * intros a b [<-|Ha] Hb; [apply F, in_app_iff; auto|auto].
    + intros (H1 & H2 & H3). apply StronglySorted_inv in H1 as [H1 F]. constructor.
      * apply IH. split; auto. split; auto. intros a b Ha Hb. apply H3; auto. right. auto.
      * apply Forall_app. split; auto. apply Forall_forall. intros b Hb. apply H3; auto. left. auto.
Qed.
Lemma SS_filter {A} (P : A -> A -> Prop) f l : StronglySorted P l -> StronglySorted P (filter f l).
Proof.
  induction l as [|x l IH]; cbn [filter]; intros H; auto. apply StronglySorted_inv in H as [H F]. rewrite Forall_forall in F.
  destruct (f x); auto. constructor; auto. apply Forall_forall. intros y Hy. apply filter_In in Hy. apply F. tauto.
Qed.
Lemma flen {A} (f : A -> bool) l : length (filter f l) <= length l.
Proof. induction l as [|x l IH]; cbn; [lia|]. destruct (f x); cbn; lia. Qed.
Lemma SS_map {A} (P : A -> A -> Prop) (Q : nat * nat -> nat * nat -> Prop) (f : A -> handle) l :
  (forall a a' b b', In a l -> In a' l -> f a = Some b -> f a' = Some b' -> P a a' -> Q b b') ->
  StronglySorted P l -> StronglySorted Q (alive (map f l)).
Proof.
  induction l as [|x l IH]; cbn [map]; intros H S; [constructor|]. apply StronglySorted_inv in S as [S F]. rewrite Forall_forall in F.
  assert (S' : StronglySorted Q (alive (map f l))).
  { apply IH; auto. intros a a' b b' Ha Ha'. apply H; right; auto. }
  change (alive (f x :: map f l)) with (match f x with Some a => [a] | None => [] end ++ alive (map f l)).
  destruct (f x) as [y|] eqn:E; cbn [app]; auto. constructor; auto. apply Forall_forall. intros b Hb.
  apply alive_map in Hb as (a & Ha & Eb). apply (H x a); auto; [left; auto|right; auto].
Qed.
Lemma SS_R i l a b : StronglySorted (R i) l -> In a l -> In b l -> fst a < fst b -> R i a b.
Proof.
  induction l as [|x l IH]; intros S Ha Hb L; [destruct Ha|]. apply StronglySorted_inv in S as [S F]. rewrite Forall_forall in F.
  destruct Ha as [<-|Ha], Hb as [<-|Hb]; auto; [lia|]. apply F in Ha. destruct Ha. lia.
Qed.

Lemma heap_top_ok hs : match heap_top hs with
  | None => alive hs = []
  | Some (k, a) => hs = firstn k hs ++ Some a :: skipn (k + 1) hs
  end.
Proof.
  induction hs as [|h hs IH]; cbn [heap_top]; auto. destruct h as [a|].
  - destruct (heap_top hs) as [[k b]|]; [|reflexivity]. destruct (poi_lt a b); [|reflexivity].
    cbn [firstn skipn Nat.add app]. rewrite IH at 1. reflexivity.
  - destruct (heap_top hs) as [[k b]|]; cbn [option_map]; [|exact IH].
    cbn [firstn skipn Nat.add app]. rewrite IH at 1. reflexivity.
Qed.

Lemma erase_right_ok e i hs : forall new ex, StronglySorted (R i) (alive hs) ->
  let '(r, new', ex') := erase_right e hs new ex in
  alive r = filter (fun a => e <=? fst a) (alive hs) /\
  (new' = new \/ (exists a, In a (alive hs) /\ fst a < e /\ e + new' = endof a) /\ exists r', r = None :: r') /\
  (ex' = false -> ex = false /\ forall a, In a (alive hs) -> fst a <> e).
Proof.
  induction hs as [|[[p l]|] hs IH]; intros new ex S; cbn [erase_right].
  - split; [reflexivity|]. split; [auto|]. intros ->. split; auto; intros a [].
  - change (alive (Some (p, l) :: hs)) with ((p, l) :: alive hs) in *. apply StronglySorted_inv in S as [S F]. rewrite Forall_forall in F.
    assert (NOE : ~ (p < e) -> forall a, In a (alive hs) -> fst a < e -> False).
    { intros L2 a Ha L3. apply F in Ha. destruct Ha as [Ha _]. cbn in Ha. lia. }
    destruct (p <? e) eqn:Ep; [|destruct (p =? e) eqn:Ee].
    + specialize (IH (if e <? l + p then Nat.max (l + p - e) new else new) ex S).
      destruct (erase_right e hs _ ex) as [[r new'] ex']. destruct IH as (E1 & E2 & E3).
      split; [cbn [filter fst]; replace (e <=? p) with false by lia; exact E1|]. split.
      * destruct E2 as [E2|((a & Ha & La & Ea) & _)].
        -- destruct (e <? l + p) eqn:El; [|auto]. destruct (le_lt_dec (l + p - e) new); [left; lia|].
           right. split; [|eexists; reflexivity]. exists (p, l). split; [left; auto|]. unfold endof. cbn [fst snd]. lia.
        -- right. split; [|eexists; reflexivity]. exists a. split; [right; auto|]. auto.
      * intros X. destruct (E3 X) as [E4 E5]. split; auto. intros a [<-|Ha]; auto. cbn. lia.
    + specialize (IH new true S). destruct (erase_right e hs new true) as [[r new'] ex']. destruct IH as (E1 & E2 & E3).
      split; [cbn [filter fst]; replace (e <=? p) with true by lia; cbn; f_equal; exact E1|]. split.
      * destruct E2 as [E2|((a & Ha & La & Ea) & _)]; [auto|]. exfalso. apply (NOE ltac:(lia) a Ha La).
      * intros X. destruct (E3 X) as [E4 _]. discriminate.
    + assert (All : forall a, In a (alive hs) -> e < fst a).
      { intros a Ha. apply F in Ha. destruct Ha as [Ha _]. cbn in Ha. lia. }
      split; [|split; auto].
      * cbn [filter fst]. replace (e <=? p) with true by lia. cbn [alive flat_map app]. f_equal. fold (alive hs).
        clear -All. induction (alive hs) as [|x t IHt]; cbn [filter]; auto.
        pose proof (All x (or_introl eq_refl)). replace (e <=? fst x) with true by lia. f_equal. apply IHt. intros a Ha. apply All. right. auto.
      * intros ->. split; auto. intros a [<-|Ha]; [cbn; lia|]. apply All in Ha. lia.
  - specialize (IH new ex S). destruct (erase_right e hs new ex) as [[r new'] ex']. destruct IH as (E1 & E2 & E3).
    split; [exact E1|]. split; [|exact E3]. destruct E2 as [E2|(E2 & _)]; [auto|]. right. split; [exact E2|]. eexists. reflexivity.
Qed.

Definition fo (thr next : nat) (a : nat * nat) : handle :=
  if next <? fst a then Some a
  else if thr <=? Nat.min (snd a) (next - fst a) then Some (fst a, Nat.min (snd a) (next - fst a)) else None.
Lemma clip_left_ok thr next i hs : StronglySorted (fun b a => R i a b) (alive hs) -> Forall (fun a => thr <= snd a) (alive hs) ->
  alive (clip_left thr next hs) = alive (map (fo thr next) (alive hs)).
Proof.
  induction hs as [|[[p l]|] hs IH]; intros S F; cbn [clip_left]; auto.
  change (alive (Some (p, l) :: hs)) with ((p, l) :: alive hs) in *. apply StronglySorted_inv in S as [S G].
  apply Forall_cons_iff in F as [F1 F]. cbn [snd] in F1. specialize (IH S F).
  cbn [map]. change (alive (fo thr next (p, l) :: ?t)) with (match fo thr next (p, l) with Some a => [a] | None => [] end ++ alive t).
  set (T := alive (map (fo thr next) (alive hs))) in *.
  assert (Cn : forall h t, alive (h :: t) = match h with Some a => [a] | None => [] end ++ alive t) by reflexivity.
  unfold fo. cbn [fst snd]. destruct (next <? p) eqn:E1; [rewrite Cn, IH; reflexivity|].
  destruct (next - p <? l) eqn:E2.
  - rewrite Cn, IH. replace (Nat.min l (next - p)) with (next - p) by lia.
    destruct (next - p <? thr) eqn:E3; [replace (thr <=? next - p) with false by lia|replace (thr <=? next - p) with true by lia]; reflexivity.
  - replace (Nat.min l (next - p)) with l by lia. replace (thr <=? l) with true by lia. rewrite Cn. f_equal.
    unfold T. clear -G F E1 E2. induction (alive hs) as [|[q m] t IHt]; cbn [map]; auto.
    apply Forall_cons_iff in G as [(G1 & G2 & _) G]. apply Forall_cons_iff in F as [F1 F]. unfold endof in G2. cbn [fst snd] in *.
    change (alive (fo thr next (q, m) :: ?u)) with (match fo thr next (q, m) with Some a => [a] | None => [] end ++ alive u).
    unfold fo at 1. cbn [fst snd]. replace (next <? q) with false by lia. replace (Nat.min m (next - q)) with m by lia.
    replace (thr <=? m) with true by lia. cbn [app]. f_equal. auto.
Qed.

Section Plcp.
  Context (text : list N) (sa isa : list nat).
  Hypothesis Hs : is_sa text sa.
  Hypothesis Ht : terminated text.
  Hypothesis Hi : forall i, i < length text -> nth_error isa (nth i sa 0) = Some i.
  Let n := length text.
  Variable thr : nat.
  Hypothesis Hthr : 1 <= thr.
  Local Notation PL := (PL text sa isa).
  Local Notation before := (before sa isa).
  Local Notation pred_factor := (pred_factor text sa isa).

  Lemma PL_step p : p + 1 < n - 1 -> PL p <= PL (p + 1) + 1.
  Proof.
    intros Hp. assert (F : isphi text sa before).
    { intros i X. unfold StrategyProofs.before. rewrite (rk_sa text sa isa Hi) by lia. reflexivity. }
    pose proof (kasai text sa Hs Ht before p F Hp) as K. unfold StrategyProofs.PL, lcp_at in *.
    rewrite (lcp_len_sym (suffix text (before p))), (lcp_len_sym (suffix text (before (p + 1)))). exact K.
  Qed.
  Lemma PL_steps k : forall p, p + k < n - 1 -> PL p <= PL (p + k) + k.
  Proof.
    induction k as [|k IH]; intros p Hp; [rewrite !Nat.add_0_r; lia|].
    pose proof (IH p ltac:(lia)). pose proof (PL_step (p + k) ltac:(lia)). replace (p + S k) with (p + k + 1) by lia. lia.
  Qed.

  Definition entry (i : nat) (a : nat * nat) : Prop := fst a < n - 1 /\ thr <= snd a <= PL (fst a) /\ endof a <= i.
  Definition good (i : nat) (l : list (nat * nat)) : Prop := StronglySorted (R i) l /\ Forall (entry i) l.
  Definition covered (l : list (nat * nat)) (x : nat) : Prop := exists a, In a l /\ fst a <= x < endof a.

  Lemma right_part_ok i A p l hs : good i (A ++ (p, l) :: alive hs) ->
    exists rt, right_part thr i p l hs = Some rt /\ good i (A ++ alive rt) /\
      Forall (fun a => p + l <= fst a) (alive rt) /\ length (alive rt) <= length (alive hs) /\
      (forall x, covered (alive rt) x -> covered (alive hs) x).
  Proof.
    intros [S F]. apply SS_app in S as (SA & SB & SAB). apply StronglySorted_inv in SB as [SB FB].
    apply Forall_app in F as [FA F]. apply Forall_cons_iff in F as [Fp F]. rewrite Forall_forall in FB.
    unfold right_part. destruct (p + l <? i) eqn:Eg.
    - pose proof (erase_right_ok (p + l) i hs 0 false SB) as E. destruct (erase_right (p + l) hs 0 false) as [[r new] ex].
      destruct E as (E1 & E2 & E3).
      assert (Gr : good i (A ++ alive r)).
      { split.
        - apply SS_app. split; auto. rewrite E1. split; [apply SS_filter; auto|]. intros a b Ha Hb. apply filter_In in Hb as [Hb _].
          apply SAB; auto. right. auto.
        - apply Forall_app. split; auto. rewrite E1. rewrite Forall_forall in *. intros b Hb. apply filter_In in Hb. apply F. tauto. }
      assert (Fr : Forall (fun a => p + l <= fst a) (alive r)).
      { rewrite E1. apply Forall_forall. intros a Ha. apply filter_In in Ha. lia. }
      destruct (negb ex && (thr <=? new)) eqn:En.
      + apply andb_prop in En as [En1 En2]. destruct ex; [discriminate|]. destruct (E3 eq_refl) as [_ E4].
        destruct E2 as [E2|((w & Hw & Lw & Ew) & (r' & ->))]; [lia|].
        exists (Some (p + l, new) :: r'). split; [reflexivity|].
        change (alive (None :: r')) with (alive r') in *. change (alive (Some (p + l, new) :: r')) with ((p + l, new) :: alive r').
        destruct Gr as [G1 G2]. apply SS_app in G1 as (_ & G1 & G3). apply Forall_app in G2 as [_ G2].
        rewrite Forall_forall in F. pose proof (F w Hw) as (W1 & W2 & W3).
        destruct (PL_in text sa isa Hs Ht Hi (fst w) W1) as [W4 _]. fold n in W4.
        assert (NE : entry i (p + l, new)).
        { unfold endof in *. split; [cbn; lia|]. cbn [fst snd]. split; [|cbn; lia].
          pose proof (PL_steps (p + l - fst w) (fst w) ltac:(lia)) as K. replace (fst w + (p + l - fst w)) with (p + l) in K by lia. lia. }
        split; [|split; [|split]].
        * split.
          -- apply SS_app. split; auto. split.
             ++ constructor; auto. apply Forall_forall. intros b Hb. pose proof Hb as Hb'. rewrite E1 in Hb'. apply filter_In in Hb' as [Hb1 Hb2].
                pose proof (SS_R i _ w b SB Hw Hb1 ltac:(lia)) as (R1 & R2 & R3). pose proof (E4 b Hb1).
                split; [cbn; lia|]. unfold endof in *. cbn [fst snd]. lia.
             ++ intros a b Ha [<-|Hb]; [|apply G3; auto]. pose proof (SAB a (p, l) Ha (or_introl eq_refl)) as (R1 & R2 & R3).
                split; [cbn in *; lia|]. unfold endof in *. cbn [fst snd] in *. lia.
          -- apply Forall_app. split; auto.
        * constructor; [cbn; lia|exact Fr].
        * cbn [length]. rewrite E1. clear -Hw Lw. induction (alive hs) as [|x t IH]; [destruct Hw|]. cbn [filter length].
          destruct Hw as [->|Hw].
          -- replace (p + l <=? fst w) with false by lia. pose proof (flen (fun a : nat * nat => p + l <=? fst a) t). lia.
          -- specialize (IH Hw). destruct (p + l <=? fst x); cbn [length]; lia.
        * intros x (a & [<-|Ha] & Hx).
          -- exists w. split; auto. unfold endof in *. cbn [fst snd] in *. lia.
          -- rewrite E1 in Ha. apply filter_In in Ha. exists a. tauto.
      + exists r. split; auto. split; auto. split; auto. split.
        * rewrite E1. apply flen.
        * intros x (a & Ha & Hx). rewrite E1 in Ha. apply filter_In in Ha. exists a. tauto.
    - exists hs. split; auto. assert (B : alive hs = []).
      { destruct (alive hs) as [|b t] eqn:Eb; auto. exfalso. destruct (FB b (or_introl eq_refl)) as (_ & _ & K). unfold endof in K. cbn in K. lia. }
      rewrite B in *. split; [split; [rewrite app_nil_r; auto|apply Forall_app; auto]|]. auto.
  Qed.

  Lemma flush_ok i fuel : forall hs, length (alive hs) <= fuel -> good i (alive hs) ->
    exists fs, flush fuel sa isa thr i hs = Some fs /\ Forall (pred_factor thr) fs /\ disjoint fs /\
      forall f x, In f fs -> covers f x -> covered (alive hs) x.
  Proof.
    induction fuel as [|fuel IH]; intros hs Hf G; cbn [flush]; pose proof (heap_top_ok hs) as T;
      destruct (heap_top hs) as [[k [p l]]|].
    - exfalso. rewrite T, alive_app, app_length in Hf. cbn in Hf. lia.
    - exists []. split; auto. split; [constructor|]. split; [constructor|]. intros f x [].
    - set (h1 := firstn k hs) in *. set (h2 := skipn (k + 1) hs) in *. clearbody h1 h2. subst hs.
      rewrite alive_app in *. change (alive (Some (p, l) :: h2)) with ((p, l) :: alive h2) in *.
      destruct (right_part_ok i (alive h1) p l h2 G) as (rt & -> & [S' F'] & D & Lr & Cr).
      destruct G as [S F]. apply Forall_app in F as [FA F]. apply Forall_cons_iff in F as [Fp F].
      destruct Fp as (P1 & P2 & P3). cbn [fst snd] in P1, P2. unfold endof in P3. cbn [fst snd] in P3.
      apply SS_app in S as (_ & _ & SAB).
      destruct (pos_on text sa isa Hs Hi p ltac:(fold n; lia)) as (r & Hr & E & -> & Rk). cbn [obind].
      rewrite <- Rk, (pred_of_rk text sa isa Hs Ht Hi p P1). cbn [obind].
      set (hs1 := h1 ++ None :: rt). set (hs2 := rev (clip_left thr p (rev hs1))).
      assert (A1 : alive hs1 = alive h1 ++ alive rt) by (unfold hs1; rewrite alive_app; reflexivity).
      assert (A2 : alive hs2 = alive (map (fo thr p) (alive hs1))).
      { unfold hs2. rewrite alive_rev, (clip_left_ok thr p i).
        - rewrite alive_rev, map_rev, <- alive_rev, rev_involutive. reflexivity.
        - rewrite alive_rev, A1. clear -S'. induction (alive h1 ++ alive rt) as [|x t IHt]; cbn [rev]; [constructor|].
          apply StronglySorted_inv in S' as [S' F]. apply SS_app. split; auto. split; [repeat constructor|].
          rewrite Forall_forall in F. intros a b Ha [<-|[]]. apply F. apply in_rev. auto.
        - rewrite alive_rev, A1. apply Forall_rev. eapply Forall_impl; [|exact F']. unfold entry. cbv beta. tauto. }
      assert (Left : forall a, In a (alive h1) -> fst a < p).
      { intros a Ha. destruct (SAB a (p, l) Ha (or_introl eq_refl)) as [X _]. exact X. }
      rewrite Forall_forall in F', D.
      assert (Src : forall b, In b (alive hs2) -> exists a, In a (alive hs1) /\ fst b = fst a /\ thr <= snd b <= snd a /\
                (endof b <= p \/ p + l <= fst b)).
      { intros b Hb. rewrite A2 in Hb. apply alive_map in Hb as (a & Ha & Eb). exists a. split; auto.
        rewrite A1 in Ha. pose proof (F' a Ha) as (Y1 & Y2 & Y3). unfold fo in Eb.
        apply in_app_iff in Ha as [Ha|Ha].
        - apply Left in Ha. replace (p <? fst a) with false in Eb by lia.
          destruct (thr <=? Nat.min (snd a) (p - fst a)) eqn:Et; [|discriminate]. injection Eb as <-. unfold endof. cbn [fst snd]. lia.
        - apply D in Ha. replace (p <? fst a) with true in Eb by lia. injection Eb as <-. lia. }
      destruct (IH hs2) as (fs & -> & B1 & B2 & B3).
      { rewrite app_length in Hf. cbn [length] in Hf. rewrite A2. pose proof (alive_length (map (fo thr p) (alive hs1))) as Y.
        rewrite map_length, A1, app_length in Y. rewrite A1. lia. }
      { split.
        - rewrite A2. apply (SS_map (R i)); [|rewrite A1; exact S'].
          intros a a' b b' Ha Ha' Eb Eb' (R1 & R2 & R3). unfold fo in *. unfold R, endof in *.
          destruct (p <? fst a) eqn:X1.
          + injection Eb as <-. replace (p <? fst a') with true in Eb' by lia. injection Eb' as <-. lia.
          + destruct (thr <=? Nat.min (snd a) (p - fst a)); [|discriminate]. injection Eb as <-. cbn [fst snd].
            destruct (p <? fst a') eqn:X2; [injection Eb' as <-; lia|].
            destruct (thr <=? Nat.min (snd a') (p - fst a')); [|discriminate]. injection Eb' as <-. cbn [fst snd]. lia.
        - apply Forall_forall. intros b Hb. apply Src in Hb as (a & Ha & X1 & X2 & _). rewrite A1 in Ha. apply F' in Ha as (Y1 & Y2 & Y3).
          unfold entry, endof in *. rewrite X1. lia. }
      cbn [obind]. eexists. split; [reflexivity|]. split; [|split].
      + constructor; auto. split; [|split]; cbn [f_pos f_src f_len]; auto.
      + apply disjoint_cons. split; auto. apply Forall_forall. intros g Hg x [Hx1 Hx2].
        destruct (B3 g x Hg Hx2) as (b & Hb & Hx3). destruct (Src b Hb) as (a & _ & _ & _ & X). unfold covers in Hx1. cbn [f_pos f_len] in Hx1. lia.
      + intros f x [<-|Hf'] Hx.
        * exists (p, l). split; [apply in_app_iff; right; left; auto|]. exact Hx.
        * destruct (B3 f x Hf' Hx) as (b & Hb & Hx3). destruct (Src b Hb) as (a & Ha & X1 & X2 & _).
          assert (Cx : covered (alive hs1) x) by (exists a; split; auto; unfold endof in *; lia).
          rewrite A1 in Cx. destruct Cx as (c & Hc & Hx4). apply in_app_iff in Hc as [Hc|Hc].
          -- exists c. split; auto. apply in_app_iff. auto.
          -- destruct (Cr x) as (c' & Hc' & Hx5); [exists c; auto|]. exists c'. split; auto. apply in_app_iff. right. right. auto.
    - exists []. split; auto. split; [constructor|]. split; [constructor|]. intros f x [].
  Qed.

  Variable plcp : list nat.
  Hypothesis Lp : length plcp = n.
  Hypothesis Hl : forall i, 1 <= i < n -> nth_error plcp (nth i sa 0) = Some (lcp_at text (nth (i - 1) sa 0) (nth i sa 0)).

  Lemma disjoint_app fs gs : disjoint fs -> disjoint gs -> (forall f g x, In f fs -> In g gs -> ~ (covers f x /\ covers g x)) -> disjoint (fs ++ gs).
  Proof.
    induction fs as [|f fs IH]; cbn [app]; auto. intros D1 D2 H. apply disjoint_cons in D1 as [D1 D3]. apply disjoint_cons. split.
    - apply Forall_app. split; auto. apply Forall_forall. intros g Hg x. apply H; auto. left. auto.
    - apply IH; auto. intros f' g x Hf Hg. apply H; auto. right. auto.
  Qed.

  Definition pending (i : nat) (hs : list handle) (last ll : nat) : Prop :=
    hs <> [] -> last < i /\ thr <= ll /\
    StronglySorted (fun a b => fst a < fst b /\ endof a < endof b) (alive hs) /\
    Forall (fun a => fst a < n - 1 /\ thr <= snd a <= PL (fst a) /\ fst a <= last /\ endof a <= last + ll) (alive hs).

  Lemma poi_loop_ok fuel : forall i hs last ll, 2 * (n - i) + (match hs with [] => 0 | _ => 1 end) <= fuel -> pending i hs last ll ->
    exists fs, poi_loop fuel sa isa plcp thr i hs last ll = Some fs /\ Forall (pred_factor thr) fs /\ disjoint fs /\
      forall f x, In f fs -> covers f x -> covered (alive hs) x \/ i <= x.
  Proof.
    induction fuel as [|fuel IH]; intros i hs last ll Hf Pd; cbn [poi_loop]; rewrite (len_sa' text sa Hs); fold n.
    - replace (i + 1 <? n) with false by lia. exists []. split; auto. split; [constructor|]. split; [constructor|]. intros f x [].
    - destruct (i + 1 <? n) eqn:Ei; [|exists []; split; auto; split; [constructor|]; split; [constructor|]; intros f x []].
      assert (Hp : i < n - 1) by lia.
      rewrite (plcp_PL text sa isa Hs Ht Hi plcp Lp Hl i Hp). cbn [obind].
      assert (N0 : forall j la lb, pending j [] la lb) by (intros j la lb X; congruence).
      assert (C0 : forall x, covered (alive []) x -> False) by (intros x (a & [] & _)).
      destruct hs as [|h hs].
      + destruct (thr <=? PL i) eqn:Et.
        * destruct (IH (i + 1) [Some (i, PL i)] i (PL i)) as (fs & -> & B1 & B2 & B3); [cbn; lia| |].
          { intros _. split; [lia|]. split; [lia|]. split; [repeat constructor|]. constructor; [|constructor]. unfold endof. cbn [fst snd]. lia. }
          exists fs. split; auto. split; auto. split; auto. intros f x Hf' Hx. right.
          destruct (B3 f x Hf' Hx) as [(a & [<-|[]] & K)|K]; [cbn in K; lia|lia].
        * destruct (IH (i + 1) [] last ll) as (fs & -> & B1 & B2 & B3); [cbn; lia|auto|].
          exists fs. split; auto. split; auto. split; auto. intros f x Hf' Hx. right.
          destruct (B3 f x Hf' Hx) as [K|K]; [destruct (C0 x K)|lia].
      + destruct (Pd ltac:(discriminate)) as (P1 & P0 & P2 & P3). replace (i + 1 =? n) with false by lia. rewrite orb_false_r.
        rewrite Forall_forall in P3.
        destruct (ll <=? i - last) eqn:El.
        * destruct (flush_ok i (length (h :: hs)) (h :: hs)) as (fs & -> & A1 & A2 & A3).
          { apply alive_length. }
          { split.
            - rewrite <- (map_id (alive (h :: hs))) at 1. clear -P2 P3 El P1.
              induction (alive (h :: hs)) as [|x t IHt]; cbn [map]; [constructor|]. apply StronglySorted_inv in P2 as [P2 F].
              constructor; [apply IHt; auto; intros y Hy; apply P3; right; auto|].
              rewrite map_id. rewrite Forall_forall in *. intros y Hy. pose proof (F y Hy) as [F1 F2].
              pose proof (P3 y (or_intror Hy)). split; auto. split; [|lia]. lia.
            - apply Forall_forall. intros a Ha. apply P3 in Ha. unfold entry. split; [tauto|]. split; [tauto|]. lia. }
          cbn [obind]. destruct (IH i [] last ll) as (gs & -> & B1 & B2 & B3); [cbn in *; lia|auto|].
          cbn [obind]. exists (fs ++ gs). split; auto. split; [apply Forall_app; auto|]. split.
          -- apply disjoint_app; auto. intros f g x Hf' Hg [X1 X2]. destruct (A3 f x Hf' X1) as (a & Ha & K). apply P3 in Ha.
             destruct (B3 g x Hg X2) as [Y|Y]; [destruct (C0 x Y)|lia].
          -- intros f x Hf' Hx. apply in_app_iff in Hf' as [Hf'|Hf']; [left; apply (A3 f x); auto|].
             destruct (B3 f x Hf' Hx) as [Y|Y]; [destruct (C0 x Y)|auto].
        * destruct (PL i <=? ll) eqn:Ev.
          -- destruct (IH (i + 1) (h :: hs) last ll) as (fs & -> & B1 & B2 & B3); [cbn in *; lia| |].
             { intros _. split; [lia|]. split; [lia|]. split; auto. apply Forall_forall. auto. }
             exists fs. split; auto. split; auto. split; auto. intros f x Hf' Hx. destruct (B3 f x Hf' Hx); [auto|right; lia].
          -- assert (Tl : thr <= PL i) by lia.
             destruct (IH (i + 1) ((h :: hs) ++ [Some (i, PL i)]) i (PL i)) as (fs & E & B1 & B2 & B3); [cbn in *; lia| |].
             { intros _. rewrite alive_app. split; [lia|]. split; [lia|]. split.
               - apply SS_app. split; auto. split; [repeat constructor|]. intros a b Ha [<-|[]]. apply P3 in Ha. unfold endof in *. cbn [fst snd]. lia.
               - apply Forall_app. split; [apply Forall_forall; intros a Ha; apply P3 in Ha; split; [tauto|]; split; [tauto|]; lia|].
                 constructor; [|constructor]. unfold endof. cbn [fst snd]. lia. }
             exists fs. split; [exact E|]. split; auto. split; auto. intros f x Hf' Hx.
             destruct (B3 f x Hf' Hx) as [(a & Ha & K)|K]; [|right; lia]. rewrite alive_app in Ha. apply in_app_iff in Ha as [Ha|[<-|[]]].
             ++ left. exists a. auto.
             ++ right. cbn in K. lia.
  Qed.
End Plcp.
