(** Proofs about LZ78U. *)
From Coq Require Import Sorted.
From Verif Require Import Base BitIO BitIOProofs IntCodes IntCodesProofs Coders CodersProofs BitCoders Lfs LfsSpec LfsProofs LZ78U.
Local Open Scope nat_scope.

(** ** The suffix tree *)
Lemma lcp_prefix a : forall b, firstn (lcp a b) a = firstn (lcp a b) b /\ lcp a b <= length a /\ lcp a b <= length b.
Proof.
  induction a as [|x a IH]; intros [|y b]; cbn [lcp]; try (repeat split; cbn; lia).
  destruct (N.eqb_spec x y) as [->|]; [|repeat split; cbn; lia].
  destruct (IH b) as (H1 & H2 & H3). cbn. rewrite H1. repeat split; lia.
Qed.

Section Text.
  Variable body : list N.
  Hypothesis Hz : Forall (fun c => c <> 0%N) body.
  Let T := body ++ [0%N].
  Let n := length T.

  Lemma T_len : n = S (length body).
  Proof. unfold n, T. rewrite app_length. cbn. lia. Qed.
  Lemma T_body i : i < length body -> nth_error T i = nth_error body i.
  Proof. intros. unfold T. apply nth_error_app1; auto. Qed.
  Lemma T_end : nth_error T (length body) = Some 0%N.
  Proof. unfold T. rewrite nth_error_app2, Nat.sub_diag; auto. Qed.
  Lemma T_zero i : nth_error T i = Some 0%N -> i = length body.
  Proof.
    intros H. assert (L : i < n) by (apply nth_error_Some; congruence). rewrite T_len in L.
    destruct (Nat.eq_dec i (length body)) as [|D]; auto. rewrite T_body in H by lia.
    apply nth_error_In in H. rewrite Forall_forall in Hz. now apply Hz in H.
  Qed.
  Lemma T_char i : i < length body -> exists c, nth_error T i = Some c /\ c <> 0%N /\ In c body.
  Proof.
    intros H. rewrite T_body by auto. destruct (nth_error body i) as [c|] eqn:E; [|apply nth_error_None in E; lia].
    exists c. split; auto. apply nth_error_In in E. rewrite Forall_forall in Hz. auto.
  Qed.

  Lemma nth_error_skipn {A} (l : list A) a i : nth_error (skipn a l) i = nth_error l (a + i).
  Proof. revert l; induction a as [|a IH]; intros l; [reflexivity|]. destruct l; [destruct i; reflexivity|]. apply IH. Qed.
  Lemma nth_error_firstn {A} (l : list A) a i : i < a -> nth_error (firstn a l) i = nth_error l i.
  Proof. revert l i; induction a as [|a IH]; intros l i H; [lia|]. destruct l; [reflexivity|]. destruct i; [reflexivity|]. cbn. apply IH; lia. Qed.

  Lemma depths_le pos d : pos < n -> In d (depths T pos) -> pos + d <= length body.
  Proof.
    intros Hp H. unfold depths in H. apply filter_In in H. destruct H as [H1 H2]. apply in_seq in H1.
    apply existsb_exists in H2. destruct H2 as (x & X1 & X2). apply Nat.eqb_eq in X2. subst x.
    apply in_map_iff in X1. destruct X1 as (j & J1 & J2). apply in_seq in J2.
    destruct (Nat.eqb_spec j pos) as [|D]; [fold n in J1; fold n in H1; lia|].
    destruct (lcp_prefix (skipn pos T) (skipn j T)) as (P1 & P2 & P3). rewrite J1 in *.
    rewrite !skipn_length in P2, P3. fold n in P2, P3, J2. rewrite T_len in *.
    destruct (Nat.le_gt_cases (pos + d) (length body)) as [|G]; auto. exfalso. apply D.
    assert (E : nth_error T (j + (length body - pos)) = Some 0%N).
    { rewrite <- nth_error_skipn, <- (nth_error_firstn _ d) by lia. rewrite <- P1.
      rewrite nth_error_firstn, nth_error_skipn by lia. replace (pos + (length body - pos)) with (length body) by lia. apply T_end. }
    apply T_zero in E. lia.
  Qed.
  Lemma depths_hd pos : pos < length body -> exists ds, depths T pos = 0 :: ds.
  Proof.
    intros Hp. unfold depths. assert (E : exists m, length T = S m) by (exists (length body); fold n; apply T_len).
    destruct E as (m & E). rewrite E. cbn [seq]. cbn [filter].
    match goal with |- context [existsb ?f ?l] => assert (X : existsb f l = true) end; [|rewrite X; eauto].
    apply existsb_exists. exists 0. split; [|reflexivity]. change (0 :: seq 1 m) with (seq 0 (S m)).
    apply in_map_iff. exists (length body). split.
    - replace (length body =? pos) with false by lia.
      destruct (T_char pos Hp) as (c & C1 & C2 & _).
      destruct (skipn pos T) as [|x r] eqn:S1; [apply (f_equal (@length N)) in S1; rewrite skipn_length in S1; cbn in S1; fold n in S1; rewrite T_len in S1; lia|].
      assert (x = c). { pose proof (nth_error_skipn T pos 0) as Q. rewrite S1, Nat.add_0_r, C1 in Q. cbn in Q. congruence. }
      subst x. destruct (skipn (length body) T) as [|y r'] eqn:S2; [reflexivity|].
      assert (y = 0%N). { pose proof (nth_error_skipn T (length body) 0) as Q. rewrite S2, Nat.add_0_r, T_end in Q. cbn in Q. congruence. }
      subst y. cbn [lcp]. replace (c =? 0)%N with false; auto. symmetry. now apply N.eqb_neq.
    - apply in_seq. pose proof T_len. fold n in E. lia.
  Qed.
  Lemma sorted_filter_seq (f : nat -> bool) m : forall a, StronglySorted lt (filter f (seq a m)).
  Proof.
    induction m as [|m IH]; intros a; cbn [seq filter]; [constructor|]. destruct (f a); [|apply IH].
    constructor; [apply IH|]. apply Forall_forall. intros x Hx. apply filter_In in Hx. destruct Hx as [Hx _]. apply in_seq in Hx. lia.
  Qed.
  Lemma depths_sorted pos : StronglySorted lt (depths T pos).
  Proof. apply sorted_filter_seq. Qed.

  Lemma node_len pos d : pos + d <= length body -> length (node T pos d) = d.
  Proof. intros. unfold node. rewrite firstn_length, skipn_length. fold n. rewrite T_len. lia. Qed.
  Lemma node_body pos d : pos + d <= length body -> node T pos d = firstn d (skipn pos body).
  Proof.
    intros. unfold node, T. rewrite skipn_app, firstn_app. rewrite skipn_length.
    replace (d - (length body - pos)) with 0 by lia. rewrite firstn_O, app_nil_r. reflexivity.
  Qed.
  Lemma node_zero pos d : pos + d <= length body -> Forall (fun c => c <> 0%N) (node T pos d).
  Proof.
    intros H. rewrite node_body by auto. rewrite Forall_forall in *. intros c Hc. apply Hz.
    rewrite <- (firstn_skipn pos body). apply in_or_app. right. rewrite <- (firstn_skipn d (skipn pos body)). apply in_or_app. auto.
  Qed.
  Lemma node_in pos d c : pos + d <= length body -> In c (node T pos d) -> In c body.
  Proof.
    intros H Hc. rewrite node_body in Hc by auto. rewrite <- (firstn_skipn pos body). apply in_or_app. right.
    rewrite <- (firstn_skipn d (skipn pos body)). apply in_or_app. auto.
  Qed.
  Lemma node_app pos a b : node T pos (a + b) = node T pos a ++ node T (pos + a) b.
  Proof.
    unfold node. rewrite (Nat.add_comm pos a), <- LfsProofs.skipn_skipn. generalize (skipn pos T). intros l. revert l.
    induction a as [|a IH]; intros l; [reflexivity|]. destruct l; cbn; [destruct b; reflexivity|]. f_equal. apply IH.
  Qed.

  (** ** walk *)
  Lemma walk_spec R pos : forall ds p p' o, walk T R pos p ds = (p', o) -> StronglySorted lt (p :: ds) ->
    (p' = p \/ In p' ds /\ rget R (node T pos p') <> 0%N) /\
    match o with
    | Some d => In d ds /\ p' < d
    | None => Forall (fun d => rget R (node T pos d) <> 0%N) ds
    end.
  Proof.
    induction ds as [|d ds IH]; intros p p' o H S; cbn [walk] in H.
    - injection H as <- <-. auto.
    - inversion S as [|? ? S1 S2]; subst. inversion S2; subst.
      destruct (N.eqb_spec (rget R (node T pos d)) 0) as [E|E].
      + injection H as <- <-. split; auto. split; [left; auto|auto].
      + destruct (IH _ _ _ H S1) as (A & B). split.
        * right. destruct A as [->|[A1 A2]]; [split; [left|]; auto|split; [right|]; auto].
        * destruct o; [destruct B; split; [right|]; auto|constructor; auto].
  Qed.

  (** ** What the calls of one factor mean.  [fulls]: the strings of the factors so far. *)
  Definition full (fulls : list (list N)) (r : N) : list N := if (r =? 0)%N then [] else nth (N.to_nat (r - 1)) fulls [].
  (** in at most [k] steps the buffer [buf] becomes [lab] *)
  Inductive subs (fulls : list (list N)) : nat -> list N -> list N -> list ev -> Prop :=
  | subs_end k lab : subs fulls (S k) lab lab [ESep false; EChr 0%N]
  | subs_chr k buf lab c es : c <> 0%N -> In c body -> subs fulls k (buf ++ [c]) lab es -> subs fulls (S k) buf lab (ESep false :: EChr c :: es)
  | subs_ref k buf lab r w es : r <> 0%N -> nth_error fulls (N.to_nat (r - 1)) = Some w -> Forall (fun c => c <> 0%N) w ->
      subs fulls k (buf ++ w) lab es -> subs fulls (S k) buf lab (ESep true :: ERef r (N.of_nat (length fulls)) :: es)
  | subs_cut k buf lab cut es : cut <= length buf -> (N.of_nat cut <= index_max)%N ->
      subs fulls k (firstn (length buf - cut) buf) lab es ->
      subs fulls (S k) buf lab (ESep true :: ERef 0 (N.of_nat (length fulls)) :: ERef (N.of_nat cut) index_max :: es).
  Definition fact (fulls : list (list N)) (ref : N) (lab : list N) (f : list ev) : Prop :=
    (ref <= N.of_nat (length fulls))%N /\ Forall (fun c => c <> 0%N /\ In c body) lab /\
    (f = ERef ref (N.of_nat (length fulls)) :: ESep true :: ev_str lab \/
     exists s, f = ERef ref (N.of_nat (length fulls)) :: ESep false :: s /\ subs fulls (length lab + 2) [] lab s).
  Inductive facts : list (list N) -> list (list ev) -> list N -> Prop :=
  | facts_nil fulls : facts fulls [] []
  | facts_cons fulls f fs ref lab rest : fact fulls ref lab f -> full fulls ref ++ lab <> [] ->
      facts (fulls ++ [full fulls ref ++ lab]) fs rest ->
      facts fulls (f :: fs) ((full fulls ref ++ lab) ++ rest).

  (** ** The compressor *)
  Variable th : nat.
  Hypothesis Hth : 1 <= th.
  Hypothesis Hn : (N.of_nat n < 2 ^ 32)%N.
  Definition Rinv (fulls : list (list N)) (R : rmap) : Prop :=
    rget R [] = 0%N /\ forall w, rget R w <> 0%N -> nth_error fulls (N.to_nat (rget R w - 1)) = Some w.

  Lemma walk_depth R pos : pos < length body -> forall p o, walk T R pos 0 (tl (depths T pos)) = (p, o) ->
    pos + p <= length body /\ (p = 0 \/ rget R (node T pos p) <> 0%N) /\
    match o with Some d => p < d /\ pos + d <= length body | None => last (depths T pos) 0 = 0 \/ rget R (node T pos (last (depths T pos) 0)) <> 0%N end.
  Proof.
    clear th Hth Hn. intros Hp p o H. destruct (depths_hd pos Hp) as (ds & E).
    pose proof (depths_sorted pos) as S. rewrite E in H, S |- *. cbn [tl] in H.
    assert (HIn : forall d, In d ds -> pos + d <= length body) by (intros d Hd; apply depths_le; [rewrite T_len; lia|rewrite E; right; auto]).
    destruct (walk_spec R pos ds 0 p o H S) as (A & B). split; [destruct A as [->|[A _]]; [lia|auto]|].
    split; [destruct A as [->|[_ A]]; auto|]. destruct o as [d|]; [destruct B; auto|].
    destruct ds as [|d ds]; [left; reflexivity|]. right.
    rewrite (app_removelast_last 0 (l := d :: ds)) in B by discriminate. apply Forall_app in B. destruct B as [_ B]. inversion B; subst.
    cbn [last] in *. auto.
  Qed.

  Lemma subs_mono fulls k buf lab es : subs fulls k buf lab es -> forall k', k <= k' -> subs fulls k' buf lab es.
  Proof.
    induction 1; intros k' Hk; (destruct k' as [|k']; [lia|]); econstructor; eauto; apply IHsubs; lia.
  Qed.
  Lemma sub_ok fulls R b e : e <= length body -> forall fuel pos, e - pos <= fuel -> b <= pos ->
    exists es, sub_loop T th fuel R (N.of_nat (length fulls)) pos e = Some es /\
      (Rinv fulls R -> pos <= e -> subs fulls (e - pos + 2) (node T b (pos - b)) (node T b (e - b)) es).
  Proof.
    intros He. induction fuel as [|fuel IH]; intros pos Hf Hb.
    { replace (sub_loop _ _ _ _ _ _ _) with (if pos <? e then @None (list ev) else Some [ESep false; EChr 0%N]) by reflexivity.
      replace (pos <? e) with false by lia. eexists. split; [reflexivity|]. intros _ L. assert (pos = e) by lia. subst pos.
      replace (e - e + 2) with 2 by lia. constructor. }
    cbn [sub_loop]. destruct (Nat.ltb_spec pos e) as [L|L].
    2:{ eexists. split; [reflexivity|]. intros _ L'. assert (pos = e) by lia. subst pos. replace (e - e + 2) with 2 by lia. constructor. }
    destruct (walk T R pos 0 (tl (depths T pos))) as [p o] eqn:W. cbn [fst].
    destruct (walk_depth R pos ltac:(lia) p o W) as (W1 & W2 & _).
    destruct (Nat.ltb_spec p th) as [L'|L'].
    - destruct (T_char pos ltac:(lia)) as (c & C1 & C2 & C3). rewrite C1. cbn [obind].
      destruct (IH (pos + 1) ltac:(lia) ltac:(lia)) as (es & E1 & E2). rewrite E1. cbn [obind].
      eexists. split; [reflexivity|]. intros HR _. replace (e - pos + 2) with (S (e - (pos + 1) + 2)) by lia. constructor; auto.
      replace (node T b (pos - b) ++ [c]) with (node T b (pos + 1 - b)); [apply E2; auto; lia|].
      replace (pos + 1 - b) with ((pos - b) + 1) by lia. rewrite node_app. f_equal. replace (b + (pos - b)) with pos by lia.
      unfold node. destruct (skipn pos T) as [|x r] eqn:SK.
      + pose proof (nth_error_skipn T pos 0) as Q. rewrite SK, Nat.add_0_r, C1 in Q. discriminate.
      + pose proof (nth_error_skipn T pos 0) as Q. rewrite SK, Nat.add_0_r, C1 in Q. cbn in Q. injection Q as ->. reflexivity.
    - destruct (IH (pos + p) ltac:(lia) ltac:(lia)) as (es & E1 & E2). rewrite E1. cbn [obind].
      eexists. split; [reflexivity|]. intros HR _. destruct W2 as [->|W2]; [lia|].
      destruct HR as [HR0 HR]. pose proof (HR _ W2) as Q.
      assert (EB : node T b (pos - b) ++ node T pos p = node T b (pos + p - b)).
      { replace (pos + p - b) with ((pos - b) + p) by lia. rewrite node_app. do 2 f_equal. lia. }
      replace (e - pos + 2) with (S (S (e - pos))) by lia. econstructor; eauto using node_zero. rewrite EB.
      destruct (Nat.ltb_spec e (pos + p)) as [G|G].
      + cbn [app]. constructor.
        * rewrite node_len by lia. lia.
        * unfold index_max. rewrite T_len in Hn. lia.
        * rewrite node_len by lia. replace (pos + p - b - (pos + p - e)) with (e - b) by lia.
          assert (X : firstn (e - b) (node T b (pos + p - b)) = node T b (e - b)).
          { unfold node. rewrite firstn_firstn. f_equal. lia. }
          rewrite X. replace (e - pos) with (S (e - pos - 1)) by lia.
          destruct fuel; cbn [sub_loop] in E1; replace (pos + p <? e) with false in E1 by lia; injection E1 as <-; constructor.
      + cbn [app]. eapply subs_mono; [apply E2; [split; auto|lia]|lia].
  Qed.

  Lemma strip_ok e : 1 <= e -> e <= length body -> strip T e = Some e.
  Proof.
    clear th Hth Hn. intros H1 H2. destruct e as [|e]; [lia|]. cbn [strip]. destruct (T_char e ltac:(lia)) as (c & C1 & C2 & _).
    rewrite C1. cbn [obind]. replace (c =? 0)%N with false; auto. symmetry. now apply N.eqb_neq.
  Qed.
  Lemma out_ok fulls R fuel b e ref : b <= e -> e <= length body -> 1 <= e -> e - b <= fuel ->
    exists f, (forall e', strip T e' = Some e -> out_factor T th fuel R (N.of_nat (length fulls)) b e' ref = Some f) /\
      (Rinv fulls R -> (ref <= N.of_nat (length fulls))%N -> fact fulls ref (node T b (e - b)) f).
  Proof.
    intros H1 H2 H3 H4. destruct (Nat.leb_spec th (e - b)) as [L|L].
    - destruct (sub_ok fulls R b e H2 fuel b H4 (Nat.le_refl _)) as (es & E1 & E2).
      eexists. split.
      + intros e' He. unfold out_factor. rewrite He. cbn [obind]. replace (e <? b) with false by lia.
        replace (th <=? e - b) with true by lia. rewrite E1. cbn [obind]. reflexivity.
      + intros HR Hr. split; auto. split.
        { apply Forall_forall. intros c Hc. split; [|eapply node_in; [|exact Hc]; lia].
          pose proof (node_zero b (e - b) ltac:(lia)) as Q. rewrite Forall_forall in Q. auto. }
        right. eexists. split; [reflexivity|]. rewrite node_len by lia. specialize (E2 HR H1).
        rewrite Nat.sub_diag in E2. exact E2.
    - eexists. split.
      + intros e' He. unfold out_factor. rewrite He. cbn [obind]. replace (e <? b) with false by lia.
        replace (th <=? e - b) with false by lia. reflexivity.
      + intros HR Hr. split; auto. split.
        { apply Forall_forall. intros c Hc. split; [|eapply node_in; [|exact Hc]; lia].
          pose proof (node_zero b (e - b) ltac:(lia)) as Q. rewrite Forall_forall in Q. auto. }
        left. reflexivity.
  Qed.

  Lemma list_eqb_spec a : forall b, list_eqb a b = true <-> a = b.
  Proof.
    induction a as [|x a IH]; intros [|y b]; cbn; try (split; congruence).
    rewrite Bool.andb_true_iff, N.eqb_eq, IH. split; [intros [-> ->]; auto|intros [= -> ->]; auto].
  Qed.
  Lemma Rinv_full fulls R pos p : Rinv fulls R -> pos + p <= length body -> (p = 0 \/ rget R (node T pos p) <> 0%N) ->
    full fulls (rget R (node T pos p)) = node T pos p /\ (rget R (node T pos p) <= N.of_nat (length fulls))%N.
  Proof.
    intros [HR0 HR] Hp [->|H].
    - change (node T pos 0) with (@nil N). rewrite HR0. split; [reflexivity|lia].
    - pose proof (HR _ H) as Q. unfold full. replace (rget R (node T pos p) =? 0)%N with false by lia.
      rewrite (nth_error_nth _ _ [] Q). split; auto.
      assert (N.to_nat (rget R (node T pos p) - 1) < length fulls) by (apply nth_error_Some; congruence). lia.
  Qed.
  Lemma Rinv_mono fulls R w : Rinv fulls R -> Rinv (fulls ++ [w]) R.
  Proof.
    intros [HR0 HR]. split; auto. intros x Hx. specialize (HR x Hx). rewrite nth_error_app1; auto. apply nth_error_Some. congruence.
  Qed.
  Lemma Rinv_set fulls R w : Rinv fulls R -> w <> [] -> (N.of_nat (length fulls) + 1 < 2 ^ N.of_nat (r_width T))%N ->
    Rinv (fulls ++ [w]) (rset (r_width T) R w (N.of_nat (length fulls) + 1)).
  Proof.
    intros HR Hw Hb. unfold rset. rewrite N.mod_small by auto. split.
    - cbn [rget]. destruct (list_eqb w []) eqn:E; [apply list_eqb_spec in E; congruence|]. apply HR.
    - intros x. cbn [rget]. destruct (list_eqb w x) eqn:E.
      + apply list_eqb_spec in E. subst x. intros _. rewrite nth_error_app2 by lia.
        replace (N.to_nat (N.of_nat (length fulls) + 1 - 1) - length fulls) with 0 by lia. reflexivity.
      + intros Hx. apply (Rinv_mono fulls R w HR). auto.
  Qed.

  Lemma skipn_split l p d : p + d <= length (l : list N) -> skipn p l = firstn d (skipn p l) ++ skipn (p + d) l.
  Proof. intros. rewrite (Nat.add_comm p d), <- LfsProofs.skipn_skipn. symmetry. apply firstn_skipn. Qed.

  Lemma loop_ok : forall fuel R fulls pos, length body < pos + fuel ->
    exists fs, lz78u_loop T th fuel R (N.of_nat (length fulls)) pos = Some fs /\
      (Rinv fulls R -> (N.of_nat (length fulls + length fs) < 2 ^ N.of_nat (r_width T))%N -> facts fulls fs (skipn pos body)).
  Proof.
    assert (EN : length T - 1 = length body) by (fold n; rewrite T_len; lia).
    induction fuel as [|fuel IH]; intros R fulls pos Hf; cbn [lz78u_loop]; rewrite EN.
    { replace (pos <? length body) with false by lia. eexists. split; [reflexivity|]. intros. rewrite skipn_all2 by lia. constructor. }
    destruct (Nat.ltb_spec pos (length body)) as [L|L].
    2:{ eexists. split; [reflexivity|]. intros. rewrite skipn_all2 by lia. constructor. }
    assert (Hlast : pos + last (depths T pos) 0 <= length body).
    { destruct (depths_hd pos L) as (ds & E). apply depths_le; [rewrite T_len; lia|]. rewrite E.
      rewrite (app_removelast_last 0 (l := 0 :: ds)) at 2 by discriminate. apply in_or_app. right. left. auto. }
    set (pd := last (depths T pos) 0) in *.
    assert (EF' : forall w : list N, (N.of_nat (length fulls) + 1 = N.of_nat (length (fulls ++ [w])))%N) by (intros; rewrite app_length; cbn; lia).
    destruct ((pd =? 0) || negb (rget R (node T pos pd) =? 0)%N) eqn:B.
    - assert (B' : pd = 0 \/ rget R (node T pos pd) <> 0%N) by lia.
      (* a leaf: one character, none at the end of the text *)
      set (e := Nat.min (pos + pd + 1) (length body)).
      assert (He : strip T (pos + pd + 1) = Some e).
      { destruct (Nat.eq_dec (pos + pd) (length body)) as [Q|Q].
        - rewrite Nat.add_1_r. cbn [strip]. rewrite Q, T_end. cbn [obind]. change (0 =? 0)%N with true. cbn [andb].
          replace e with (length body) by lia. apply strip_ok; lia.
        - replace e with (pos + pd + 1) by lia. apply strip_ok; lia. }
      destruct (out_ok fulls R fuel (pos + pd) e (rget R (node T pos pd))) as (f & F1 & F2); try lia.
      rewrite (F1 _ He). cbn [obind].
      set (w := node T pos (e - pos)).
      destruct (IH R (fulls ++ [w]) (pos + pd + 1) ltac:(lia)) as (fs & E1 & E2).
      rewrite (EF' w), E1. cbn [obind]. eexists. split; [reflexivity|]. intros HR Hb.
      destruct (Rinv_full fulls R pos pd HR Hlast B') as (G1 & G2).
      assert (Ew : full fulls (rget R (node T pos pd)) ++ node T (pos + pd) (e - (pos + pd)) = w).
      { rewrite G1. unfold w. replace (e - pos) with (pd + (e - (pos + pd))) by lia. rewrite node_app. reflexivity. }
      assert (Es : skipn pos body = w ++ skipn (pos + pd + 1) body).
      { destruct (Nat.eq_dec (pos + pd) (length body)) as [Q|Q].
        - rewrite (skipn_all2 (n := pos + pd + 1)) by lia. rewrite app_nil_r. unfold w. rewrite node_body by lia. rewrite firstn_all2; auto. rewrite skipn_length. lia.
        - rewrite (skipn_split body pos (e - pos)) by lia. unfold w. rewrite node_body by lia. do 2 f_equal. lia. }
      rewrite Es, <- Ew. constructor; auto.
      + rewrite Ew. intros X. apply (f_equal (@length N)) in X. unfold w in X. rewrite node_len in X by lia. cbn in X. lia.
      + rewrite Ew. apply E2; [apply Rinv_mono; auto|]. rewrite app_length. cbn [length] in Hb |- *. lia.
    - assert (B' : pd <> 0 /\ rget R (node T pos pd) = 0%N) by lia. destruct B' as [B1 B2].
      destruct (walk T R pos 0 (tl (depths T pos))) as [p o] eqn:W.
      destruct (walk_depth R pos L p o W) as (W1 & W2 & W3). fold pd in W3.
      destruct o as [d|]; [|exfalso; destruct W3; auto; congruence]. destruct W3 as [W3 W4].
      destruct (out_ok fulls R fuel (pos + p) (pos + d) (rget R (node T pos p))) as (f & F1 & F2); try lia.
      rewrite (F1 _ (strip_ok (pos + d) ltac:(lia) W4)). cbn [obind].
      set (w := node T pos d).
      destruct (IH (rset (r_width T) R w (N.of_nat (length fulls) + 1)) (fulls ++ [w]) (pos + d) ltac:(lia)) as (fs & E1 & E2).
      rewrite <- (EF' w) in E1. rewrite E1. cbn [obind]. eexists. split; [reflexivity|]. intros HR Hb.
      destruct (Rinv_full fulls R pos p HR W1 W2) as (G1 & G2).
      replace (pos + d - (pos + p)) with (d - p) in F2 by lia.
      assert (Ew : full fulls (rget R (node T pos p)) ++ node T (pos + p) (d - p) = w).
      { rewrite G1. unfold w. replace d with (p + (d - p)) at 2 by lia. rewrite node_app. reflexivity. }
      assert (Hw : w <> []) by (intros X; apply (f_equal (@length N)) in X; unfold w in X; rewrite node_len in X by lia; cbn in X; lia).
      rewrite (skipn_split body pos d) by lia. rewrite <- (node_body pos d W4). fold w. rewrite <- Ew at 1. constructor; auto.
      + rewrite Ew. auto.
      + rewrite Ew. cbn [length] in Hb. apply E2; [apply Rinv_set; auto; lia|]. rewrite app_length. cbn [length]. lia.
  Qed.
End Text.
