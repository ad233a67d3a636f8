(** Proofs about BWT.v: LF mapping and inversion. *)
From Verif Require Import Base SASpec BWT.
Local Open Scope nat_scope.

Lemma lexb_asym a : forall b, lexb a b = true -> lexb b a = false.
Proof.
  induction a as [|x a IH]; intros [|y b] H; simpl in *; try discriminate; auto.
  destruct (x <? y)%N eqn:E1; simpl in H.
  - replace (y <? x)%N with false by lia. replace (y =? x)%N with false by lia. auto.
  - destruct (x =? y)%N eqn:E2; [|discriminate]. simpl in H. replace (y <? x)%N with false by lia. simpl.
    rewrite (IH _ H). apply andb_false_r.
Qed.
Lemma lexb_irrefl a : lexb a a = false.
Proof. induction a; simpl; auto. rewrite IHa. replace (a <? a)%N with false by lia. rewrite N.eqb_refl. auto. Qed.

Definition cnt {A} (P : A -> bool) (l : list A) : nat := length (filter P l).
Lemma cnt_app {A} (P : A -> bool) a b : cnt P (a ++ b) = cnt P a + cnt P b.
Proof. unfold cnt. rewrite filter_app, app_length. auto. Qed.
Lemma cnt_cons {A} (P : A -> bool) x l : cnt P (x :: l) = (if P x then 1 else 0) + cnt P l.
Proof. unfold cnt. simpl. destruct (P x); auto. Qed.
Lemma cnt_ext {A} (P Q : A -> bool) l : (forall x, In x l -> P x = Q x) -> cnt P l = cnt Q l.
Proof.
  induction l as [|x l IH]; intros H; auto. rewrite !cnt_cons, (H x), IH; auto.
  - intros y Hy. apply H. right; auto.
  - left; auto.
Qed.
Lemma cnt_false {A} (P : A -> bool) l : (forall x, In x l -> P x = false) -> cnt P l = 0.
Proof. induction l as [|x l IH]; intros H; auto. rewrite cnt_cons, (H x), IH; auto; [intros; apply H; right; auto|left; auto]. Qed.
Lemma cnt_map {A B} (f : A -> B) P l : cnt P (map f l) = cnt (fun x => P (f x)) l.
Proof. induction l; auto. simpl map. rewrite !cnt_cons, IHl. auto. Qed.
Lemma cnt_perm {A} (P : A -> bool) l m : Permutation l m -> cnt P l = cnt P m.
Proof. induction 1; rewrite ?cnt_cons in *; auto; lia. Qed.
Lemma cnt_or {A} (P Q : A -> bool) l : (forall x, In x l -> P x = true -> Q x = false) ->
  cnt (fun x => P x || Q x) l = cnt P l + cnt Q l.
Proof.
  induction l as [|x l IH]; intros H; auto. rewrite !cnt_cons, IH by (intros; apply H; auto; right; auto).
  specialize (H x (or_introl eq_refl)). destruct (P x), (Q x); simpl; lia || (specialize (H eq_refl); discriminate).
Qed.
Lemma cnt_true {A} (l : list A) : cnt (fun _ => true) l = length l.
Proof. induction l; auto. rewrite cnt_cons, IHl. auto. Qed.

(** ** compute_LF counts *)
Lemma bwt_count_len bwt : forall C, length (bwt_count C bwt) = length C.
Proof. induction bwt as [|c bwt IH]; intros C; simpl; auto. rewrite IH. destruct (_ =? 255); auto. apply upd_length. Qed.
Lemma bwt_count_nth bwt : forall C d, length C = 256 -> Forall (fun c => (c < 256)%N) bwt -> d < 256 ->
  nth d (bwt_count C bwt) 0 = nth d C 0 + cnt (fun x => N.to_nat x + 1 =? d) bwt.
Proof.
  induction bwt as [|c bwt IH]; intros C d HC Hb Hd; simpl; [unfold cnt; simpl; lia|].
  inversion Hb; subst. rewrite cnt_cons. destruct (N.to_nat c =? 255) eqn:E.
  - apply Nat.eqb_eq in E. rewrite IH by auto. replace (N.to_nat c + 1 =? d) with false by lia. lia.
  - apply Nat.eqb_neq in E. rewrite IH by (auto; rewrite upd_length; auto).
    destruct (N.to_nat c + 1 =? d) eqn:F.
    + apply Nat.eqb_eq in F. rewrite <- F. rewrite nth_upd_eq by lia. lia.
    + apply Nat.eqb_neq in F. rewrite nth_upd_ne by auto. lia.
Qed.
Lemma bwt_accum_len k : forall C i, length (bwt_accum C i k) = length C.
Proof. induction k; intros C i; simpl; auto. rewrite IHk, upd_length. auto. Qed.
Lemma accum_ok (S : nat -> nat) k : forall i C, length C = 256 -> 1 <= i -> i + k = 255 ->
  (forall j, j < i -> nth j C 0 = S j) -> (forall j, i <= j < 255 -> nth j C 0 + S (j - 1) = S j) ->
  forall j, j < 255 -> nth j (bwt_accum C i k) 0 = S j.
Proof.
  induction k as [|k IH]; intros i C HC Hi Hk H1 H2 j Hj; simpl.
  - apply H1. lia.
  - apply IH; try lia.
    + rewrite upd_length; auto.
    + intros d Hd. destruct (Nat.eq_dec d i) as [->|].
      * rewrite nth_upd_eq by lia. rewrite (H1 (i - 1)) by lia. apply H2. lia.
      * rewrite nth_upd_ne by auto. apply H1. lia.
    + intros d Hd. rewrite nth_upd_ne by lia. apply H2. lia.
Qed.
Lemma bwt_lf_nth bwt : forall C i c, length C = 256 -> Forall (fun c => (c < 256)%N) bwt ->
  nth_error bwt i = Some c ->
  nth_error (bwt_lf C bwt) i = Some (nth (N.to_nat c) C 0 + cnt (fun x => (x =? c)%N) (firstn i bwt)).
Proof.
  induction bwt as [|x bwt IH]; intros C [|i] c HC Hb H; simpl in *; try discriminate.
  - apply Some_inj in H. subst. rewrite Nat.add_0_r. auto.
  - inversion Hb; subst. rewrite (IH _ _ c) by (auto; rewrite upd_length; auto). f_equal. rewrite cnt_cons.
    destruct (x =? c)%N eqn:E.
    + apply N.eqb_eq in E. subst x. rewrite nth_upd_eq by lia. lia.
    + rewrite nth_upd_ne by lia. lia.
Qed.
Lemma compute_LF_nth bwt i c : Forall (fun c => (c < 256)%N) bwt -> nth_error bwt i = Some c -> (c < 255)%N ->
  nth_error (compute_LF bwt) i =
    Some (cnt (fun x => (x <? c)%N) bwt + cnt (fun x => (x =? c)%N) (firstn i bwt)).
Proof.
  intros Hb H Hc. unfold compute_LF. rewrite (bwt_lf_nth _ _ _ c); auto.
  2:{ rewrite bwt_accum_len, bwt_count_len, repeat_length. auto. }
  f_equal. f_equal.
  rewrite (accum_ok (fun d => cnt (fun x => (x <? N.of_nat d)%N) bwt)); try lia.
  - rewrite N2Nat.id. auto.
  - rewrite bwt_count_len, repeat_length. auto.
  - intros j Hj. replace j with 0 by lia. rewrite bwt_count_nth by (auto; lia). simpl (nth 0 _ _).
    rewrite !cnt_false; auto; intros x _; lia.
  - intros j Hj. rewrite bwt_count_nth by (auto; rewrite ?repeat_length; auto; lia). rewrite nth_repeat.
    rewrite Nat.add_0_l, Nat.add_comm, <- cnt_or by (intros; lia). apply cnt_ext. intros x _. lia.
Qed.

(** ** Suffix arrays *)
Section LF.
  Variables (text : list N) (sa : list nat).
  Notation n := (length text).
  Hypothesis Hsa : is_sa text sa.
  Hypothesis Ht : terminated text.
  Hypothesis Hb : Forall (fun c => (c < 255)%N) text.
  Definition T p := nth p text 0%N.
  Definition BW p := if p =? 0 then T (n - 1) else T (p - 1).

  Lemma sa_len : length sa = n.
  Proof. rewrite (Permutation_length (proj1 Hsa)). apply seq_length. Qed.
  Lemma n_pos : 0 < n.
  Proof. destruct Ht as (body & -> & _). rewrite app_length. simpl. lia. Qed.
  Lemma T_last : T (n - 1) = 0%N.
  Proof.
    unfold T. destruct Ht as (body & E & _). rewrite E. rewrite app_length, app_nth2; simpl; try lia.
    replace (length body + 1 - 1 - length body) with 0 by lia. auto.
  Qed.
  Lemma T_pos p : p < n - 1 -> T p <> 0%N.
  Proof.
    intros Hp. unfold T. destruct Ht as (body & E & F). rewrite E in Hp |- *. rewrite app_length in Hp. simpl in Hp.
    rewrite app_nth1 by lia. rewrite Forall_forall in F. apply F. apply nth_In. lia.
  Qed.
  Lemma sa_bound i : i < n -> nth i sa 0 < n.
  Proof.
    intros Hi. assert (X : In (nth i sa 0) (seq 0 n)).
    { apply (Permutation_in _ (proj1 Hsa)). apply nth_In. rewrite sa_len; auto. }
    apply in_seq in X. lia.
  Qed.
  Lemma sa_surj p : p < n -> exists i, i < n /\ nth i sa 0 = p.
  Proof.
    intros Hp. assert (X : In p sa).
    { apply (Permutation_in _ (Permutation_sym (proj1 Hsa))). apply in_seq. lia. }
    apply (In_nth _ _ 0) in X. destruct X as (i & Hi & E). rewrite sa_len in Hi. eauto.
  Qed.
  Lemma suf_split p : p < n -> suffix text p = T p :: suffix text (p + 1).
  Proof. intros H. unfold suffix, T. rewrite (skipn_cons_nth text p 0%N H). f_equal. f_equal. lia. Qed.
  Lemma In_nth_firstn (i : nat) y : In y (firstn i sa) -> exists j, j < i /\ j < n /\ nth j sa 0 = y.
  Proof.
    intros H. apply (In_nth _ _ 0) in H. destruct H as (j & Hj & E). rewrite firstn_length, sa_len in Hj.
    exists j. split; [lia|]. split; [lia|]. rewrite <- E. 
    rewrite <- (firstn_skipn i sa) at 1. apply app_nth1. rewrite firstn_length, sa_len. lia.
  Qed.
  Lemma In_nth_skipn (i : nat) y : In y (skipn i sa) -> exists j, i <= j < n /\ nth j sa 0 = y.
  Proof.
    intros H. apply (In_nth _ _ 0) in H. destruct H as (j & Hj & E). rewrite skipn_length, sa_len in Hj.
    exists (i + j). split; [lia|]. rewrite <- E. rewrite <- (firstn_skipn i sa) at 1.
    rewrite app_nth2; rewrite firstn_length, sa_len; [|lia]. f_equal. lia.
  Qed.
  (** the elements of sa smaller than its i-th are the first i *)
  Lemma idx_count P i : i < n -> cnt (fun y => P y && suf_lt text y (nth i sa 0)) sa = cnt P (firstn i sa).
  Proof.
    intros Hi. rewrite <- (firstn_skipn i sa) at 1. rewrite cnt_app.
    rewrite (cnt_false _ (skipn i sa)).
    2:{ intros y Hy. apply In_nth_skipn in Hy. destruct Hy as (j & Hj & <-).
        replace (suf_lt text (nth j sa 0) (nth i sa 0)) with false; [apply andb_false_r|]. symmetry.
        destruct (Nat.eq_dec i j) as [->|]; [apply lexb_irrefl|]. apply lexb_asym. apply (proj2 Hsa). lia. }
    rewrite Nat.add_0_r. apply cnt_ext. intros y Hy. apply In_nth_firstn in Hy. destruct Hy as (j & Hj & Hjn & <-).
    replace (suf_lt text (nth j sa 0) (nth i sa 0)) with true; [apply andb_true_r|]. symmetry.
    apply (proj2 Hsa). lia.
  Qed.
  Lemma bwt_is : bwt_encode text sa = Some (map BW sa).
  Proof.
    assert (G : forall l, (forall x, In x l -> x < n) -> bwt_encode text l = Some (map BW l)).
    { induction l as [|p l IH]; intros H; auto. cbn [bwt_encode]. unfold bwt_char.
      assert (Hp : p < n) by (apply H; left; auto).
      assert (E : (if p =? 0 then nth_error text (n - 1) else nth_error text (p - 1)) = Some (BW p)).
      { unfold BW, T. destruct (p =? 0); apply nth_error_nth'; lia. }
      rewrite E. cbn [obind]. rewrite IH by (intros; apply H; right; auto). auto. }
    apply G. intros x Hx. apply (Permutation_in _ (proj1 Hsa)) in Hx. apply in_seq in Hx. lia.
  Qed.
  Lemma seq_hd : seq 0 n = 0 :: seq 1 (n - 1).
  Proof. pose proof n_pos. destruct n; [lia|]. simpl. rewrite Nat.sub_0_r. auto. Qed.
  Lemma seq_tl : seq 0 n = seq 0 (n - 1) ++ [n - 1].
  Proof. pose proof n_pos. replace n with (S (n - 1)) at 1 by lia. rewrite seq_S. auto. Qed.
  Lemma rotation P : cnt (fun y => P (BW y)) (seq 0 n) = cnt (fun y => P (T y)) (seq 0 n).
  Proof.
    pose proof n_pos. rewrite seq_hd at 1. rewrite seq_tl. rewrite cnt_app, !cnt_cons.
    rewrite <- seq_shift, cnt_map. unfold BW at 1. simpl (0 =? 0). cbn iota.
    rewrite (cnt_ext (fun x => P (BW (S x))) (fun x => P (T x))).
    - unfold cnt at 3. simpl. lia.
    - intros x _. unfold BW. simpl (S x =? 0). cbn iota. f_equal. f_equal. lia.
  Qed.
  (** the heart: LF sends the row of suffix p to the row of suffix p-1 *)
  Lemma LF_correct i j : i < n -> j < n -> nth i sa 0 = S (nth j sa 0) ->
    nth_error (compute_LF (map BW sa)) i = Some j.
  Proof.
    intros Hi Hj E. set (q := nth j sa 0) in *. assert (Hq : q < n) by (apply sa_bound; auto).
    assert (Hp : S q < n) by (rewrite <- E; apply sa_bound; auto).
    set (c := T q). assert (Hc0 : c <> 0%N) by (apply T_pos; lia).
    assert (HTb : forall p, (T p < 255)%N).
    { intros p. unfold T. destruct (Nat.lt_ge_cases p n) as [Hlt|Hge]; [|rewrite nth_overflow by auto; lia].
      rewrite Forall_forall in Hb. apply Hb. apply nth_In; auto. }
    assert (HBb : Forall (fun c => (c < 256)%N) (map BW sa)).
    { apply Forall_forall. intros x Hx. apply in_map_iff in Hx. destruct Hx as (y & <- & _). unfold BW.
      destruct (y =? 0); [specialize (HTb (n - 1))|specialize (HTb (y - 1))]; lia. }
    rewrite (compute_LF_nth _ i c); auto.
    2:{ erewrite map_nth_error; [|apply nth_error_nth'; rewrite sa_len; auto].
        rewrite E. unfold BW. simpl (S q =? 0). cbn iota. unfold c. do 2 f_equal. lia. }
    2:{ apply HTb. }
    f_equal. rewrite cnt_map, (cnt_perm _ sa (seq 0 n) (proj1 Hsa)), (rotation (fun x => (x <? c)%N)).
    rewrite firstn_map, cnt_map, <- (idx_count (fun y => (BW y =? c)%N) i Hi), E.
    rewrite (cnt_perm _ sa (seq 0 n) (proj1 Hsa)).
    replace j with (cnt (fun y => suf_lt text y q) sa).
    2:{ transitivity (cnt (fun y => true && suf_lt text y q) sa); [apply cnt_ext; auto|].
        unfold q. rewrite (idx_count (fun _ => true) j Hj), cnt_true, firstn_length, sa_len. lia. }
    rewrite (cnt_perm _ sa (seq 0 n) (proj1 Hsa)).
    transitivity (cnt (fun y => (T y <? c)%N || ((T y =? c)%N && suf_lt text (y + 1) (q + 1))) (seq 0 n)).
    2:{ apply cnt_ext. intros y Hy. apply in_seq in Hy. unfold suf_lt at 2.
        rewrite (suf_split y), (suf_split q) by lia. reflexivity. }
    rewrite cnt_or by (intros; lia). f_equal.
    (* shift by one *)
    pose proof n_pos. rewrite seq_hd at 1. rewrite seq_tl. rewrite cnt_app, !cnt_cons.
    rewrite <- seq_shift, cnt_map.
    replace (BW 0 =? c)%N with false by (unfold BW; simpl; rewrite T_last; lia).
    replace (T (n - 1) =? c)%N with false by (rewrite T_last; lia). cbn [andb]. unfold cnt at 3. simpl length.
    rewrite Nat.add_0_l, Nat.add_0_r. apply cnt_ext. intros y Hy. unfold BW. simpl (S y =? 0). cbn iota.
    replace (S y - 1) with y by lia. replace (y + 1) with (S y) by lia. replace (q + 1) with (S q) by lia. auto.
  Qed.
  (** the smallest suffix is the terminator *)
  Lemma sa_first : nth 0 sa 0 = n - 1.
  Proof.
    pose proof n_pos. destruct (sa_surj (n - 1) ltac:(lia)) as (i & Hi & E).
    destruct (Nat.eq_dec i 0) as [->|Hne]; auto. exfalso.
    pose proof (proj2 Hsa 0 i ltac:(lia)) as L. unfold suf_lt in L. rewrite E in L.
    assert (Hb0 : nth 0 sa 0 < n) by (apply sa_bound; lia).
    rewrite (suf_split (n - 1)), (suf_split (nth 0 sa 0)) in L by lia. rewrite T_last in L.
    cbn [lexb] in L. replace (suffix text (n - 1 + 1)) with (@nil N) in L.
    2:{ symmetry. apply skipn_all2. lia. }
    replace (T (nth 0 sa 0%nat) <? 0)%N with false in L by lia. simpl in L.
    destruct (suffix text (nth 0 sa 0 + 1)); simpl in L; rewrite ?andb_false_r in L; discriminate.
  Qed.
  Lemma walk_ok k : forall i acc, i < n -> k < n -> nth i sa 0 = k ->
    bwt_walk (map BW sa) (compute_LF (map BW sa)) i k acc = Some (firstn k text ++ acc).
  Proof.
    induction k as [|k IH]; intros i acc Hi Hk E; cbn [bwt_walk]; auto.
    destruct (sa_surj k ltac:(lia)) as (j & Hj & Ej).
    erewrite map_nth_error; [|apply nth_error_nth'; rewrite sa_len; auto]. cbn [obind].
    rewrite (LF_correct i j) by (auto; lia). cbn [obind]. rewrite (IH j) by (auto; lia). f_equal.
    rewrite E. unfold BW. simpl (S k =? 0). cbn iota. replace (S k - 1) with k by lia.
    assert (FS : firstn (S k) text = firstn k text ++ [T k]).
    { unfold T. clear - Hk. revert k Hk. induction text as [|x t IHt]; intros [|k] Hk; simpl in *; try lia; auto.
      f_equal. apply IHt. lia. }
    rewrite FS, <- app_assoc. auto.
  Qed.
  Lemma bwt_roundtrip_pf : exists b, bwt_encode text sa = Some b /\ length b = n /\
    decode_bwt b = Some (firstn (n - 1) text).
  Proof.
    exists (map BW sa). split; [apply bwt_is|]. split; [rewrite map_length; apply sa_len|].
    unfold decode_bwt. rewrite map_length, sa_len. pose proof n_pos.
    destruct (n <=? 1) eqn:En.
    - replace (n - 1) with 0 by (apply Nat.leb_le in En; lia). auto.
    - apply Nat.leb_gt in En. rewrite (walk_ok (n - 1) 0 []); auto; try lia; [rewrite app_nil_r; auto|apply sa_first].
  Qed.
End LF.
