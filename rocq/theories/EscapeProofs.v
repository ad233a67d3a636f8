(** Proofs about Escape.v. *)
From Verif Require Import Base Escape.
From Coq Require Import Sorting.Sorted Permutation.
Local Open Scope N_scope.

(** ** Sorting *)
Lemma insert_byte_in x l y : In y (insert_byte x l) <-> y = x \/ In y l.
Proof.
  induction l as [|z l IH]; simpl; [intuition|].
  destruct (x <=? z); simpl; [intuition|]. rewrite IH. intuition.
Qed.
Lemma sort_bytes_in l y : In y (sort_bytes l) <-> In y l.
Proof. induction l; simpl; [tauto|]. rewrite insert_byte_in, IHl. intuition. Qed.
Lemma insert_byte_sorted x l : StronglySorted N.le l -> StronglySorted N.le (insert_byte x l).
Proof.
  induction 1 as [|z l Hs IH Hf]; simpl; [repeat constructor|].
  destruct (x <=? z) eqn:E.
  - constructor; [constructor; auto|]. constructor; [lia|].
    eapply Forall_impl; [|exact Hf]. simpl; intros; lia.
  - constructor; auto. rewrite Forall_forall in *. intros y Hy.
    apply insert_byte_in in Hy. destruct Hy as [->|Hy]; [lia|auto].
Qed.
Lemma sort_bytes_sorted l : StronglySorted N.le (sort_bytes l).
Proof. induction l; simpl; [constructor|]. apply insert_byte_sorted; auto. Qed.
Lemma uniq_cons2 x y l : uniq (x :: y :: l) = if x =? y then uniq (y :: l) else x :: uniq (y :: l).
Proof. reflexivity. Qed.
Lemma uniq_in l y : In y (uniq l) <-> In y l.
Proof.
  induction l as [|x l IH]; [simpl; tauto|]. destruct l as [|z l]; [simpl; tauto|].
  rewrite uniq_cons2. destruct (x =? z) eqn:E.
  - rewrite IH. assert (x = z) by lia. subst. simpl; intuition.
  - change (In y (x :: z :: l)) with (x = y \/ In y (z :: l)). rewrite <- IH. simpl; intuition.
Qed.
Lemma uniq_sorted l : StronglySorted N.le l -> StronglySorted N.lt (uniq l).
Proof.
  induction l as [|x l IH]; intros H; [constructor|].
  inversion H as [|? ? Hs Hf]; subst.
  destruct l as [|z l]; [simpl; repeat constructor|].
  rewrite uniq_cons2. destruct (x =? z) eqn:E; [auto|].
  constructor; auto. rewrite Forall_forall in *. intros y Hy.
  apply (proj1 (uniq_in _ _)) in Hy. inversion Hs as [|? ? Hs2 Hf2]; subst. rewrite Forall_forall in Hf2.
  specialize (Hf z (or_introl eq_refl)).
  assert (x < z) by lia. destruct Hy as [<-|Hy]; [lia|]. specialize (Hf2 y Hy). lia.
Qed.
(** strictly sorted lists with the same elements are equal *)
Lemma sorted_ext a b : StronglySorted N.lt a -> StronglySorted N.lt b ->
  (forall x, In x a <-> In x b) -> a = b.
Proof.
  revert b; induction a as [|x a IH]; intros [|y b] Ha Hb H; auto.
  - exfalso. apply (H y). left; auto.
  - exfalso. apply (H x). left; auto.
  - inversion Ha as [|? ? Ha2 Hfa]; inversion Hb as [|? ? Hb2 Hfb]; subst.
    rewrite Forall_forall in *.
    assert (x = y).
    { destruct (proj1 (H x) (or_introl eq_refl)) as [E|E]; [auto|].
      destruct (proj2 (H y) (or_introl eq_refl)) as [E'|E']; [auto|].
      specialize (Hfb _ E). specialize (Hfa _ E'). lia. }
    subst y. f_equal. apply IH; auto. intros z; split; intros Hz.
    + destruct (proj1 (H z) (or_intror Hz)) as [<-|E]; auto. specialize (Hfa _ Hz). lia.
    + destruct (proj2 (H z) (or_intror Hz)) as [<-|E]; auto. specialize (Hfb _ Hz). lia.
Qed.
Lemma sorted_nodup a : StronglySorted N.lt a -> NoDup a.
Proof.
  induction 1 as [|x l Hs IH Hf]; constructor; auto. intros Hi.
  rewrite Forall_forall in Hf. specialize (Hf _ Hi). lia.
Qed.
Definition norm (l : list N) := uniq (sort_bytes l).
Lemma norm_sorted l : StronglySorted N.lt (norm l).
Proof. apply uniq_sorted, sort_bytes_sorted. Qed.
Lemma norm_in l y : In y (norm l) <-> In y l.
Proof. unfold norm. rewrite uniq_in, sort_bytes_in. tauto. Qed.
Lemma norm_ext a b : (forall x, In x a <-> In x b) -> norm a = norm b.
Proof. intros H. apply sorted_ext; try apply norm_sorted. intros x. rewrite !norm_in. auto. Qed.
Lemma norm_norm a : norm (norm a) = norm a.
Proof. apply norm_ext. intros; rewrite norm_in; tauto. Qed.
Lemma norm_id a : StronglySorted N.lt a -> norm a = a.
Proof. intros. apply sorted_ext; auto using norm_sorted. intros; apply norm_in. Qed.
Lemma norm_NoDup a : NoDup (norm a).
Proof. apply sorted_nodup, norm_sorted. Qed.

(** C21 *)
Lemma restr_or_eq a b : restr_or a b = mk_restr (norm (r_esc a ++ r_esc b)) (r_nt a || r_nt b).
Proof. unfold restr_or, mk_restrictions; cbn. fold (norm (r_esc a ++ r_esc b)).
  fold (norm (norm (r_esc a ++ r_esc b))). rewrite norm_norm. reflexivity. Qed.
Lemma eqb_list_spec a b : eqb_list a b = true <-> a = b.
Proof.
  revert b; induction a as [|x a IH]; intros [|y b]; simpl; try (split; congruence).
  rewrite andb_true_iff, IH. split.
  - intros [H ->]. f_equal. lia.
  - intros H. apply cons_inj in H. destruct H as [-> ->]. split; auto. lia.
Qed.
Lemma restr_eq_spec_pf a b : restr_eq a b = true <-> a = b.
Proof.
  destruct a as [ea na], b as [eb nb]. unfold restr_eq; simpl.
  rewrite andb_true_iff, eqb_list_spec, Bool.eqb_true_iff. intuition congruence.
Qed.

(** ** pick_repl *)
Lemma byte_in_spec x l : byte_in x l = true <-> In x l.
Proof.
  unfold byte_in. rewrite existsb_exists. split.
  - intros [y [Hy E]]. assert (x = y) by lia. subst; auto.
  - intros H. exists x. split; auto. lia.
Qed.
Lemma pick_repl_spec ps esc acc : (length acc <= length esc + 1)%nat ->
  pick_repl ps esc acc = acc ++ firstn (length esc + 1 - length acc) (filter (fun b => negb (byte_in b esc)) ps).
Proof.
  revert acc; induction ps as [|b ps IH]; intros acc H; simpl.
  - rewrite firstn_nil, app_nil_r. auto.
  - destruct (negb (byte_in b esc)) eqn:E; simpl.
    + destruct (length acc <? length esc + 1)%nat eqn:L.
      * rewrite IH by (rewrite app_length; simpl; lia).
        replace (length esc + 1 - length acc)%nat with (S (length esc + 1 - length (acc ++ [b])))
          by (rewrite app_length; simpl; lia).
        simpl. rewrite <- app_assoc. reflexivity.
      * rewrite IH by auto. replace (length esc + 1 - length acc)%nat with 0%nat by lia. reflexivity.
    + apply IH; auto.
Qed.

(** the pool bytes not themselves forbidden *)
Definition free_pool (esc : list N) := filter (fun b => negb (byte_in b esc)) pool.
Lemma pool_nodup : NoDup pool.
Proof. unfold pool. repeat (constructor; [simpl; intros H; repeat (destruct H as [H|H]; [discriminate|]); auto|]). constructor. Qed.
Lemma pool_bytes x : In x pool -> x < 256.
Proof. unfold pool; simpl; intros H; repeat (destruct H as [<-|H]; [lia|]); destruct H. Qed.
Lemma firstn_in {A} n (l : list A) x : In x (firstn n l) -> In x l.
Proof. intros H. rewrite <- (firstn_skipn n l). apply in_or_app; auto. Qed.
Lemma NoDup_firstn {A} n (l : list A) : NoDup l -> NoDup (firstn n l).
Proof.
  revert n; induction l as [|x l IH]; intros [|n] H; simpl; try constructor.
  - inversion H; subst. intros Hi. apply firstn_in in Hi. auto.
  - inversion H; auto.
Qed.

Lemma escape_map_ok r : r_esc r <> [] -> (length (r_esc r) + 1 <= length (free_pool (r_esc r)))%nat ->
  exists e R, firstn (length (r_esc r) + 1) (free_pool (r_esc r)) = e :: R /\
   escape_map r = Some (mk_em (e :: R) (e :: r_esc r) (r_nt r)) /\
   length R = length (r_esc r) /\ NoDup (e :: R) /\
   (forall x, In x (e :: R) -> x < 256 /\ ~ In x (r_esc r)).
Proof.
  intros Hne Hlen.
  assert (HF : pick_repl pool (r_esc r) [] = firstn (length (r_esc r) + 1) (free_pool (r_esc r))).
  { rewrite pick_repl_spec by (simpl; lia). simpl. rewrite Nat.sub_0_r. reflexivity. }
  assert (HL : length (firstn (length (r_esc r) + 1) (free_pool (r_esc r))) = (length (r_esc r) + 1)%nat).
  { rewrite firstn_length. lia. }
  destruct (firstn (length (r_esc r) + 1) (free_pool (r_esc r))) as [|e R] eqn:ER; [simpl in HL; lia|].
  exists e, R. split; [reflexivity|].
  assert (HR : length R = length (r_esc r)) by (simpl in HL; lia).
  split; [|split; [auto|split]].
  - unfold escape_map. destruct (r_esc r) as [|z E] eqn:EE; [congruence|]. rewrite HF.
    cbn [length] in HR |- *. rewrite HR. rewrite Nat.eqb_refl. reflexivity.
  - rewrite <- ER. apply NoDup_firstn. apply NoDup_filter. apply pool_nodup.
  - intros x Hx. rewrite <- ER in Hx. apply firstn_in in Hx. unfold free_pool in Hx.
    apply filter_In in Hx. destruct Hx as [Hx Hn]. split; [apply pool_bytes; auto|].
    intros Hi. apply byte_in_spec in Hi. rewrite Hi in Hn. discriminate.
Qed.
Lemma filter_len_split {A} (f : A -> bool) l :
  (length (filter f l) + length (filter (fun x => negb (f x)) l) = length l)%nat.
Proof. induction l; simpl; auto. destruct (f a); simpl; lia. Qed.
Lemma free_pool_enough E : NoDup E -> (length E <= 6)%nat -> (length E + 1 <= length (free_pool E))%nat.
Proof.
  intros Hn HE. unfold free_pool.
  pose proof (filter_len_split (fun b => byte_in b E) pool) as H.
  assert (length (filter (fun b => byte_in b E) pool) <= length E)%nat.
  { apply NoDup_incl_length; [apply NoDup_filter, pool_nodup|].
    intros x Hx. apply filter_In in Hx. apply byte_in_spec. tauto. }
  change (length pool) with 13%nat in H. lia.
Qed.

(** ** Tables *)
Lemma table_set_length ks vs t : length (table_set ks vs t) = length t.
Proof. revert vs t; induction ks; intros [|v vs] t; simpl; auto. rewrite IHks, upd_length; auto. Qed.
Lemma table_set_notin ks vs t b : ~ In b ks -> look (table_set ks vs t) b = look t b.
Proof.
  revert vs t; induction ks as [|k ks IH]; intros [|v vs] t H; simpl; auto.
  rewrite IH by (simpl in H; tauto). unfold look. apply nth_upd_ne. simpl in H. intros E; apply H. left. lia.
Qed.
Lemma table_set_at ks vs t i k v : NoDup ks -> nth_error ks i = Some k -> nth_error vs i = Some v ->
  (N.to_nat k < length t)%nat -> look (table_set ks vs t) k = v.
Proof.
  revert vs t i; induction ks as [|k' ks IH]; intros [|v' vs] t [|i] Hn Hk Hv Hl; simpl in *; try discriminate.
  - apply Some_inj in Hk; apply Some_inj in Hv. subst. inversion Hn; subst.
    rewrite table_set_notin by auto. unfold look. apply nth_upd_eq; auto.
  - inversion Hn; subst. eapply IH; eauto. rewrite upd_length; auto.
Qed.
Lemma ident_look b : b < 256 -> look ident_table b = b.
Proof.
  intros H. unfold look, ident_table.
  rewrite nth_indep with (d' := N.of_nat 0) by (rewrite map_length, seq_length; lia).
  rewrite map_nth, seq_nth by lia. simpl; lia.
Qed.
Lemma ident_len : length ident_table = 256%nat.
Proof. reflexivity. Qed.
Lemma zero_look b : look (repeat 0 256) b = 0.
Proof. unfold look. apply nth_repeat. Qed.

(** ** The abstract escaping of one byte *)
Definition esc1 (m : escmap) (b : N) : list N :=
  if negb (look (fe_flag m) b =? 0) then [em_escape_byte m; look (fe_map m) b] else [b].
Definition escape (m : escmap) (l : list N) : list N := flat_map (esc1 m) l.

Record good_map (r : restr) (m : escmap) : Prop := {
  gm_nt : em_nt m = r_nt r;
  gm_has : em_has_escape m = has_escape_restrictions r;
  gm_clean : forall b x, b < 256 -> In x (esc1 m b) -> ~ In x (r_esc r);
  gm_byte : forall b x, b < 256 -> In x (esc1 m b) -> x < 256;
  gm_flag : forall b, b < 256 -> look (fe_flag m) b = 0 -> look (fe_map m) b = b /\
              (r_esc r <> [] -> b <> em_escape_byte m);
  gm_flag1 : forall b, b < 256 -> look (fe_flag m) b = 0 \/ look (fe_flag m) b = 1;
  gm_un : forall b, b < 256 -> look (fe_flag m) b <> 0 -> look (fu_map m) (look (fe_map m) b) = b;
  gm_noesc : r_esc r = [] -> (forall b, b < 256 -> look (fe_flag m) b = 0) /\
              (forall b, b < 256 -> look (fu_map m) b = b) /\ em_escape_byte m = 255 }.

Lemma good_escape_map r : (r_esc r = [] \/ length (r_esc r) + 1 <= length (free_pool (r_esc r)))%nat ->
  NoDup (r_esc r) -> bytes_ok (r_esc r) ->
  exists m, escape_map r = Some m /\ good_map r m.
Proof.
  intros Hl Hn Hb. destruct (r_esc r) as [|z E0] eqn:EE.
  - exists (mk_em [] [] (r_nt r)). split; [unfold escape_map; rewrite EE; auto|].
    assert (F : forall b, look (fe_flag (mk_em [] [] (r_nt r))) b = 0) by (intros; apply zero_look).
    split; intros; auto.
    + unfold has_escape_restrictions, has_no_escape_restrictions. rewrite EE. reflexivity.
    + rewrite EE. auto.
    + unfold esc1 in H0. rewrite F in H0. cbn in H0. destruct H0 as [<-|[]]. auto.
    + split; [apply ident_look; auto|congruence].
    + rewrite F in H0; congruence.
    + split; [auto|split]; auto. intros; apply ident_look; auto.
  - rewrite <- EE in *. assert (Hne : r_esc r <> []) by congruence.
    destruct Hl as [Hl|Hl]; [congruence|].
    destruct (escape_map_ok r Hne Hl) as (e & R & _ & Hm & HR & HnR & HR2).
    exists (mk_em (e :: R) (e :: r_esc r) (r_nt r)). split; auto.
    set (m := mk_em (e :: R) (e :: r_esc r) (r_nt r)) in *. clear z E0 EE.
    set (E := r_esc r) in *.
    assert (He : em_escape_byte m = e) by reflexivity.
    assert (Hen : ~ In e E) by (apply HR2; left; auto).
    assert (Hndeb : NoDup (e :: E)) by (constructor; auto).
    assert (Hbe : forall x, In x (e :: E) -> x < 256).
    { intros x [<-|Hx]; [apply (HR2 e); left; auto|]. unfold bytes_ok, byte_ok in Hb.
      rewrite Forall_forall in Hb. auto. }
    assert (Hflag_in : forall b, In b (e :: E) -> look (fe_flag m) b = 1).
    { intros b Hi. destruct (In_nth_error _ _ Hi) as [i Hi'].
      unfold fe_flag. eapply table_set_at with (i := i); eauto.
      - exact (map_nth_error (fun _ => 1) i (e :: E) Hi').
      - rewrite repeat_length. specialize (Hbe b Hi). lia. }
    assert (Hflag_out : forall b, ~ In b (e :: E) -> look (fe_flag m) b = 0).
    { intros b Hi. unfold fe_flag. rewrite table_set_notin by auto. apply zero_look. }
    assert (Hdec : forall b, In b (e :: E) \/ ~ In b (e :: E)).
    { intros b. destruct (byte_in b (e :: E)) eqn:X; [left; apply byte_in_spec; auto|right].
      intros Hi. apply byte_in_spec in Hi. congruence. }
    assert (Hpair : forall b, In b (e :: E) -> exists x, In x (e :: R) /\ look (fe_map m) b = x /\ look (fu_map m) x = b).
    { intros b Hi. destruct (In_nth_error _ _ Hi) as [i Hi'].
      assert (Hlt : (i < length (e :: R))%nat).
      { assert (i < length (e :: E))%nat by (apply nth_error_Some; congruence). simpl in *. fold E in HR. lia. }
      destruct (nth_error (e :: R) i) as [x|] eqn:Ex; [|apply nth_error_None in Ex; lia].
      exists x. split; [eapply nth_error_In; eauto|]. split.
      - unfold fe_map. eapply table_set_at with (i := i); eauto. rewrite ident_len.
        specialize (Hbe b Hi). lia.
      - unfold fu_map. eapply table_set_at with (i := i); eauto. rewrite ident_len.
        assert (x < 256) by (apply HR2; eapply nth_error_In; eauto). lia. }
    assert (Hes : forall b x, b < 256 -> In x (esc1 m b) -> x < 256 /\ ~ In x E).
    { intros b x Hb' Hx. unfold esc1 in Hx. rewrite He in Hx. destruct (Hdec b) as [Hi|Hi].
      - rewrite (Hflag_in b Hi) in Hx. change (negb (1 =? 0)) with true in Hx. cbv iota in Hx. destruct (Hpair b Hi) as (y & Hy & Hy1 & _).
        rewrite Hy1 in Hx. destruct Hx as [<-|[<-|[]]]; apply HR2; auto. left; auto.
      - rewrite (Hflag_out b Hi) in Hx. cbn in Hx. destruct Hx as [<-|[]]. split; auto.
        intros Hx; apply Hi; right; auto. }
    split; intros; auto.
    + unfold has_escape_restrictions, has_no_escape_restrictions. fold E. destruct E; [congruence|reflexivity].
    + apply (Hes b x); auto.
    + apply (Hes b x); auto.
    + destruct (Hdec b) as [Hi|Hi]; [rewrite Hflag_in in H0 by auto; discriminate|].
      split.
      * unfold fe_map. rewrite table_set_notin by auto. apply ident_look; auto.
      * intros _ ->. apply Hi. left; auto.
    + destruct (Hdec b) as [Hi|Hi]; [right|left]; auto.
    + destruct (Hdec b) as [Hi|Hi]; [|rewrite Hflag_out in H0 by auto; congruence].
      destruct (Hpair b Hi) as (y & Hy & -> & ->). auto.
    + exfalso; apply Hne; exact H.
Qed.

(** ** Loops *)
Lemma firstn_snoc {A} (l : list A) k d : (k < length l)%nat -> firstn (S k) l = firstn k l ++ [nth k l d].
Proof.
  revert k; induction l as [|x l IH]; intros [|k] H; simpl in *; try lia; auto.
  f_equal. apply IH; lia.
Qed.
Lemma firstn_upd_ge {A} (l : list A) i k x : (k <= i)%nat -> firstn k (upd l i x) = firstn k l.
Proof. revert i k; induction l; intros [|i] [|k] H; simpl; auto; try lia. f_equal. apply IHl; lia. Qed.
Lemma skipn_upd_eq {A} (l : list A) i x : (i < length l)%nat -> skipn i (upd l i x) = x :: skipn (S i) l.
Proof. revert i; induction l; intros [|i] H; simpl in *; auto; try lia. apply IHl; lia. Qed.
Lemma skipn_upd_gt {A} (l : list A) i k x : (i < k)%nat -> skipn k (upd l i x) = skipn k l.
Proof. revert i k; induction l; intros [|i] [|k] H; simpl; auto; try lia. apply IHl; lia. Qed.
Lemma nth_firstn_lt {A} (l : list A) n i d : (i < n)%nat -> nth i (firstn n l) d = nth i l d.
Proof. revert n i; induction l; intros [|n] [|i] H; simpl; auto; try lia. apply IHl; lia. Qed.

Lemma escape_app m a b : escape m (a ++ b) = escape m a ++ escape m b.
Proof. unfold escape. apply flat_map_app. Qed.
Lemma escape_ge m l : (length l <= length (escape m l))%nat.
Proof. induction l; simpl; auto. rewrite app_length. unfold esc1 at 1. destruct (negb _); simpl; lia. Qed.

Definition fixed_map (m : escmap) := forall b, b < 256 -> look (fe_flag m) b = 0 -> look (fe_map m) b = b.

Lemma esc_loop_correct m k : fixed_map m -> forall w buf,
  bytes_ok (firstn k buf) -> w = length (escape m (firstn k buf)) -> (w <= length buf)%nat -> (k <= length buf)%nat ->
  esc_loop m k w buf = Some (escape m (firstn k buf) ++ skipn w buf).
Proof.
  intros Hfix. induction k as [|k IH]; intros w buf Hb Hw Hl Hk.
  - simpl in *. subst. reflexivity.
  - rewrite (firstn_snoc buf k 0) in * by lia.
    set (c := nth k buf 0) in *. unfold bytes_ok in Hb. rewrite Forall_app in Hb. destruct Hb as [Hb Hc].
    inversion Hc as [|? ? Hc1 _]; subst x l. unfold byte_ok in Hc1.
    rewrite escape_app, app_length in Hw. pose proof (escape_ge m (firstn k buf)) as Hge.
    rewrite firstn_length_le in Hge by lia.
    simpl in Hw. rewrite app_nil_r in Hw. unfold esc1 in Hw.
    rewrite escape_app. simpl (escape m [c]). unfold esc1. cbn [esc_loop].
    fold c. destruct (negb (look (fe_flag m) c =? 0)) eqn:F; simpl in Hw.
    + destruct w as [|w1]; [lia|]. destruct w1 as [|w2]; [lia|].
      rewrite IH.
      * rewrite !firstn_upd_ge by lia. rewrite skipn_upd_eq by (rewrite upd_length; lia).
        rewrite skipn_upd_eq by lia. rewrite <- !app_assoc. reflexivity.
      * rewrite !firstn_upd_ge by lia. auto.
      * rewrite !firstn_upd_ge by lia. lia.
      * rewrite !upd_length. lia.
      * rewrite !upd_length. lia.
    + destruct w as [|w1]; [lia|].
      rewrite IH.
      * rewrite !firstn_upd_ge by lia. rewrite skipn_upd_eq by lia.
        rewrite Hfix; auto; [|lia]. rewrite <- !app_assoc. reflexivity.
      * rewrite !firstn_upd_ge by lia. auto.
      * rewrite !firstn_upd_ge by lia. lia.
      * rewrite !upd_length. lia.
      * rewrite !upd_length. lia.
Qed.
Lemma esc_loop2_correct m src k : fixed_map m -> forall w buf,
  bytes_ok (firstn k src) -> w = length (escape m (firstn k src)) -> (w <= length buf)%nat -> (k <= length src)%nat ->
  esc_loop2 m src k w buf = Some (escape m (firstn k src) ++ skipn w buf).
Proof.
  intros Hfix. induction k as [|k IH]; intros w buf Hb Hw Hl Hk.
  - simpl in *. subst. reflexivity.
  - rewrite (firstn_snoc src k 0) in * by lia.
    set (c := nth k src 0) in *. unfold bytes_ok in Hb. rewrite Forall_app in Hb. destruct Hb as [Hb Hc].
    inversion Hc as [|? ? Hc1 _]; subst x l. unfold byte_ok in Hc1.
    rewrite escape_app, app_length in Hw.
    simpl in Hw. rewrite app_nil_r in Hw. unfold esc1 in Hw.
    rewrite escape_app. simpl (escape m [c]). unfold esc1. cbn [esc_loop2].
    fold c. destruct (negb (look (fe_flag m) c =? 0)) eqn:F; simpl in Hw.
    + destruct w as [|w1]; [lia|]. destruct w1 as [|w2]; [lia|].
      rewrite IH; auto; try (rewrite ?upd_length; lia).
      rewrite skipn_upd_eq by (rewrite upd_length; lia).
      rewrite skipn_upd_eq by lia. rewrite <- !app_assoc. reflexivity.
    + destruct w as [|w1]; [lia|].
      rewrite IH; auto; try (rewrite ?upd_length; lia).
      rewrite skipn_upd_eq by lia.
      rewrite Hfix; auto; [|lia]. rewrite <- !app_assoc. reflexivity.
Qed.
Lemma copy_loop_correct src k : forall w buf, w = k -> (w <= length buf)%nat -> (k <= length src)%nat ->
  copy_loop src k w buf = Some (firstn k src ++ skipn w buf).
Proof.
  induction k as [|k IH]; intros w buf -> Hl Hk; simpl copy_loop.
  - reflexivity.
  - rewrite IH by (rewrite ?upd_length; lia). rewrite skipn_upd_eq by lia.
    rewrite (firstn_snoc src k 0) by lia. rewrite <- app_assoc. reflexivity.
Qed.

Lemma extra_fold m l a : (forall b, b < 256 -> look (fe_flag m) b = 0 \/ look (fe_flag m) b = 1) -> bytes_ok l ->
  (fold_left (fun a c => a + N.to_nat (look (fe_flag m) c)) l a + length l = a + length (escape m l))%nat.
Proof.
  intros Hf. revert a; induction l as [|b l IH]; intros a Hb; [reflexivity|].
  inversion Hb; subst. cbn [fold_left length escape flat_map]. rewrite app_length.
  fold (escape m l). specialize (IH (a + N.to_nat (look (fe_flag m) b))%nat H2).
  unfold esc1. destruct (Hf b H1) as [E|E]; rewrite E in IH |- *;
    [change (negb (0 =? 0)) with false|change (negb (1 =? 0)) with true]; cbv iota; cbn [length]; lia.
Qed.

(** what a correct restriction is *)
Definition restricted (m : escmap) (data : list N) : list N := escape m data ++ (if em_nt m then [0] else []).

Lemma extra_size_spec r m data : good_map r m -> bytes_ok data ->
  (length data + extra_size r m data = length (restricted m data))%nat.
Proof.
  intros G Hb. unfold extra_size, restricted. rewrite app_length, (gm_nt _ _ G).
  destruct (has_no_escape_restrictions r) eqn:H.
  - assert (escape m data = data).
    { unfold has_no_escape_restrictions in H. destruct (r_esc r) eqn:E; [|discriminate].
      destruct (gm_noesc _ _ G E) as [F _]. clear -F Hb. induction data as [|b l IH]; auto.
      inversion Hb; subst. simpl. unfold esc1 at 1. rewrite F by auto. simpl. f_equal. apply IH. auto. }
    rewrite H0. destruct (r_nt r); simpl; lia.
  - pose proof (extra_fold m data 0 (gm_flag1 _ _ G) Hb). destruct (r_nt r); simpl; lia.
Qed.
Lemma escape_id r m data : good_map r m -> r_esc r = [] -> bytes_ok data -> escape m data = data.
Proof.
  intros G E Hb. destruct (gm_noesc _ _ G E) as [F _]. clear -F Hb. induction data as [|b l IH]; auto.
  inversion Hb; subst. simpl. unfold esc1 at 1. rewrite F by auto. simpl. f_equal. apply IH. auto.
Qed.
Lemma good_fixed r m : good_map r m -> fixed_map m.
Proof. intros G b Hb H. apply (gm_flag _ _ G b Hb H). Qed.
Lemma noesc_nil r : has_no_escape_restrictions r = true <-> r_esc r = [].
Proof. unfold has_no_escape_restrictions; destruct (r_esc r); split; congruence. Qed.

Definition wend_of (r : restr) (n : nat) := (n - (if r_nt r then 1 else 0))%nat.
Lemma wend_spec r m data : good_map r m -> bytes_ok data ->
  wend_of r (length data + extra_size r m data) = length (escape m data).
Proof.
  intros G Hb. unfold wend_of. rewrite (extra_size_spec r m data G Hb). unfold restricted.
  rewrite app_length, (gm_nt _ _ G). destruct (r_nt r); simpl; lia.
Qed.
Lemma extra_ge_nt r m data : ((if r_nt r then 1 else 0) <= extra_size r m data)%nat.
Proof. unfold extra_size. destruct (r_nt r); lia. Qed.

Lemma restrict_view_pf r m data : escape_map r = Some m -> good_map r m -> bytes_ok data ->
  restrict_view r data = Some (restricted m data).
Proof.
  intros Hm G Hb. unfold restrict_view. rewrite Hm. cbn [obind].
  pose proof (extra_size_spec r m data G Hb) as HX. pose proof (wend_spec r m data G Hb) as HW.
  unfold wend_of in HW.
  destruct (extra_size r m data =? 0)%nat eqn:X0.
  - f_equal. assert (r_nt r = false) by (pose proof (extra_ge_nt r m data); destruct (r_nt r); auto; lia).
    unfold restricted in *. rewrite (gm_nt _ _ G), H, app_nil_r in *.
    assert (forall l, length (escape m l) = length l -> escape m l = l).
    { clear. induction l as [|b l IH]; intros H; auto. simpl in *. rewrite app_length in H.
      pose proof (escape_ge m l). unfold esc1 at 1. unfold esc1 at 1 in H. destruct (negb _); simpl in *; [lia|].
      f_equal. apply IH. lia. }
    symmetry. apply H0. lia.
  - rewrite HW. destruct (has_no_escape_restrictions r) eqn:HN.
    + apply noesc_nil in HN. pose proof (escape_id r m data G HN Hb) as HE.
      rewrite copy_loop_correct; [| rewrite HE; auto | rewrite repeat_length; rewrite HX; unfold restricted; rewrite app_length; lia | lia].
      f_equal. unfold restricted. rewrite firstn_all, HE. f_equal. rewrite HX. unfold restricted. rewrite HE.
      rewrite app_length, repeat_app, skipn_app, repeat_length.
      rewrite skipn_all2 by (rewrite repeat_length; lia). rewrite Nat.sub_diag. simpl.
      destruct (em_nt m); reflexivity.
    + rewrite esc_loop2_correct; [| eapply good_fixed; eauto | rewrite firstn_all; auto | rewrite firstn_all; auto
         | rewrite repeat_length; rewrite HX; unfold restricted; rewrite app_length; lia | lia].
      f_equal. unfold restricted. rewrite firstn_all. f_equal. rewrite HX. unfold restricted.
      rewrite app_length, repeat_app, skipn_app, repeat_length.
      rewrite skipn_all2 by (rewrite repeat_length; lia). rewrite Nat.sub_diag. simpl.
      destruct (em_nt m); reflexivity.
Qed.

(** the shared core of the in-place variants *)
Lemma inplace_core r m data tl : good_map r m -> bytes_ok data ->
  length tl = extra_size r m data ->
  (if has_no_escape_restrictions r then Some (data ++ tl)
   else esc_loop m (length data) (wend_of r (length data + extra_size r m data)) (data ++ tl))
  = Some (escape m data ++ skipn (length (escape m data)) (data ++ tl)).
Proof.
  intros G Hb Hl. rewrite (wend_spec r m data G Hb).
  destruct (has_no_escape_restrictions r) eqn:HN.
  - apply noesc_nil in HN. rewrite (escape_id r m data G HN Hb).
    rewrite skipn_app, Nat.sub_diag, skipn_all. reflexivity.
  - assert (HF : firstn (length data) (data ++ tl) = data).
    { rewrite firstn_app, Nat.sub_diag, firstn_all, firstn_O, app_nil_r. reflexivity. }
    rewrite esc_loop_correct; rewrite ?HF; auto.
    + eapply good_fixed; eauto.
    + rewrite app_length, Hl, (extra_size_spec r m data G Hb). unfold restricted. rewrite app_length. lia.
    + rewrite app_length; lia.
Qed.
Lemma tail_len r m data tl : good_map r m -> bytes_ok data -> length tl = extra_size r m data ->
  length (skipn (length (escape m data)) (data ++ tl)) = (if r_nt r then 1 else 0)%nat.
Proof.
  intros G Hb Hl. rewrite skipn_length, app_length, Hl, (extra_size_spec r m data G Hb).
  unfold restricted. rewrite app_length, (gm_nt _ _ G). destruct (r_nt r); simpl; lia.
Qed.
Lemma upd_app_tail {A} (a b : list A) x : upd (a ++ b) (length a) x = a ++ upd b 0 x.
Proof. induction a; simpl; auto. f_equal; auto. Qed.

Lemma restrict_file_pf r m data junk : escape_map r = Some m -> good_map r m -> bytes_ok data ->
  restrict_file r data junk = Some (restricted m data).
Proof.
  intros Hm G Hb. unfold restrict_file. rewrite Hm. cbn [obind].
  destruct (has_no_restrictions r) eqn:HN.
  - unfold has_no_restrictions in HN. apply andb_true_iff in HN. destruct HN as [HN1 HN2].
    apply noesc_nil in HN1. unfold restricted. rewrite (escape_id r m data G HN1 Hb), (gm_nt _ _ G).
    destruct (r_nt r); [discriminate|]. rewrite app_nil_r. auto.
  - fold (wend_of r (length data + extra_size r m data)).
    rewrite inplace_core; auto; [|rewrite map_length, seq_length; auto]. cbn [obind]. f_equal.
    rewrite (wend_spec r m data G Hb).
    match goal with |- context [skipn ?n ?l] => set (tl := skipn n l) end.
    assert (HT : length tl = (if r_nt r then 1 else 0)%nat)
      by (apply tail_len; auto; rewrite map_length, seq_length; auto).
    unfold restricted. rewrite (gm_nt _ _ G). destruct (r_nt r).
    + rewrite upd_app_tail. destruct tl as [|z [|? ?]]; simpl in HT; try lia. reflexivity.
    + destruct tl; simpl in HT; try lia. reflexivity.
Qed.
Lemma skipn_repeat_tail (data : list N) n k : (length data <= k)%nat ->
  skipn k (data ++ repeat 0 n) = repeat 0 (n - (k - length data)).
Proof.
  intros H. rewrite skipn_app, skipn_all2 by auto. simpl.
  remember (k - length data)%nat as j. clear. revert n; induction j; intros n; [rewrite Nat.sub_0_r; auto|].
  destruct n; simpl; auto.
Qed.
Lemma restrict_stream_pf r m data : escape_map r = Some m -> good_map r m -> bytes_ok data ->
  restrict_stream r data = Some (restricted m data).
Proof.
  intros Hm G Hb. unfold restrict_stream. rewrite Hm. cbn [obind].
  fold (wend_of r (length data + extra_size r m data)).
  rewrite inplace_core; auto; [|rewrite repeat_length; auto]. f_equal.
  unfold restricted. f_equal.
  rewrite skipn_repeat_tail by apply escape_ge.
  pose proof (extra_size_spec r m data G Hb) as HX. unfold restricted in HX. rewrite app_length in HX.
  pose proof (escape_ge m data). destruct (em_nt m); simpl in HX.
  - replace (_ - _)%nat with 1%nat by lia. reflexivity.
  - replace (_ - _)%nat with 0%nat by lia. reflexivity.
Qed.
Lemma restrict_again_pf r m data : escape_map r = Some m -> good_map r m -> bytes_ok data ->
  restrict_again r data = Some (restricted m data).
Proof.
  intros Hm G Hb. unfold restrict_again.
  destruct (restr_eq (mk_restrictions [] false) r) eqn:EQ.
  - apply restr_eq_spec_pf in EQ. subst r. unfold restricted. rewrite (escape_id _ m data G eq_refl Hb), (gm_nt _ _ G).
    cbn. rewrite app_nil_r. auto.
  - rewrite Hm. cbn [obind]. pose proof (restrict_view_pf r m data Hm G Hb) as HV.
    unfold restrict_view in HV. rewrite Hm in HV. cbn [obind] in HV.
    destruct (extra_size r m data =? 0)%nat eqn:X0; [exact HV|]. clear HV.
    fold (wend_of r (length data + extra_size r m data)).
    rewrite inplace_core; auto; [|rewrite repeat_length; auto]. cbn [obind]. f_equal.
    rewrite (wend_spec r m data G Hb).
    match goal with |- context [skipn ?n ?l] => set (tl := skipn n l) end.
    assert (HT : length tl = (if r_nt r then 1 else 0)%nat)
      by (apply tail_len; auto; rewrite repeat_length; auto).
    unfold restricted. rewrite (gm_nt _ _ G). destruct (r_nt r).
    + rewrite upd_app_tail. destruct tl as [|z [|? ?]]; simpl in HT; try lia. reflexivity.
    + destruct tl; simpl in HT; try lia. reflexivity.
Qed.
Lemma istream_restrict_pf r m data : escape_map r = Some m ->
  istream_restrict r data = Some (restricted m data).
Proof. intros Hm. unfold istream_restrict. rewrite Hm. reflexivity. Qed.

(** clean *)
Lemma restricted_clean r m data : good_map r m -> bytes_ok data ->
  forall x, In x (escape m data) -> x < 256 /\ ~ In x (r_esc r).
Proof.
  intros G Hb x Hx. unfold escape in Hx. rewrite in_flat_map in Hx. destruct Hx as (b & Hbi & Hx).
  unfold bytes_ok in Hb. rewrite Forall_forall in Hb. specialize (Hb b Hbi).
  split; [eapply gm_byte|eapply gm_clean]; eauto.
Qed.

(** ** Unescaping *)
(** what is demanded of the bytes so that the escape byte is unambiguous *)
Definition unamb (m : escmap) (b : N) : Prop :=
  b < 256 /\ (look (fe_flag m) b = 0 -> b <> em_escape_byte m).
Lemma esc1_shape r m b : good_map r m -> unamb m b ->
  (esc1 m b = [b] /\ b <> em_escape_byte m) \/
  (exists y, esc1 m b = [em_escape_byte m; y] /\ look (fu_map m) y = b).
Proof.
  intros G [Hb Hu]. unfold esc1. destruct (look (fe_flag m) b =? 0) eqn:F; cbn.
  - left. split; auto. apply Hu. lia.
  - right. eexists; split; [reflexivity|]. apply (gm_un _ _ G b Hb). lia.
Qed.
Lemma nth_error_mid {A} (a b : list A) k : nth_error (a ++ b) (length a + k) = nth_error b k.
Proof. rewrite nth_error_app2 by lia. f_equal. lia. Qed.
Lemma skipn_nth_error {A} (l : list A) i x t : skipn i l = x :: t -> nth_error l i = Some x /\ skipn (S i) l = t.
Proof.
  revert i; induction l as [|a l IH]; intros [|i] H; simpl in *; try discriminate.
  - apply cons_inj in H. destruct H as [-> ->]. auto.
  - apply IH; auto.
Qed.
Lemma firstn_S_upd {A} (l : list A) q x : (q < length l)%nat -> firstn (S q) (upd l q x) = firstn q l ++ [x].
Proof. revert q; induction l; intros [|q] H; simpl in *; try lia; auto. f_equal. apply IHl; lia. Qed.

Lemma unesc_loop_correct r m rest tl : good_map r m -> Forall (unamb m) rest -> forall fuel p q dend buf,
  skipn p buf = escape m rest ++ tl -> dend = (p + length (escape m rest))%nat -> (q <= p)%nat ->
  (dend <= length buf)%nat -> (length rest < fuel)%nat ->
  exists buf', unesc_loop m fuel p q dend buf = Some (dend, q + length rest, buf')%nat /\
    firstn (q + length rest) buf' = firstn q buf ++ rest /\ length buf' = length buf /\
    (q + length rest <= dend)%nat.
Proof.
  intros G Hu. induction Hu as [|b rest Hb Hu IH]; intros fuel p q dend buf Hs Hd Hq Hl Hf.
  - simpl in *. exists buf. rewrite Nat.add_0_r in *. subst dend.
    destruct fuel; [lia|]. simpl. rewrite Nat.eqb_refl. rewrite app_nil_r. repeat split; auto.
  - assert (Hlen : length (escape m (b :: rest)) = (length (esc1 m b) + length (escape m rest))%nat)
      by (simpl; rewrite app_length; auto).
    assert (Hp : (p < dend)%nat).
    { rewrite Hlen in Hd. unfold esc1 in Hd. destruct (negb _); simpl in Hd; lia. }
    destruct fuel as [|fuel]; [simpl in Hf; lia|]. cbn [unesc_loop].
    replace (p =? dend)%nat with false by (symmetry; apply Nat.eqb_neq; lia).
    cbn [escape flat_map] in Hs. fold (escape m rest) in Hs. rewrite <- app_assoc in Hs.
    destruct (esc1_shape r m b G Hb) as [[E1 E2]|(y & E1 & E2)]; rewrite E1 in *; simpl in Hs; cbn [length] in Hlen.
    + apply skipn_nth_error in Hs. destruct Hs as [Hn Hs]. rewrite Hn. cbn [obind].
      replace (b =? em_escape_byte m) with false by (symmetry; apply N.eqb_neq; auto).
      destruct (IH fuel (S p) (S q) dend (upd buf q b)) as (buf' & R1 & R2 & R3 & R4).
      * rewrite skipn_upd_gt by lia. exact Hs.
      * lia.
      * lia.
      * rewrite upd_length; lia.
      * simpl in Hf; lia.
      * exists buf'. rewrite R1. split; [do 3 f_equal; simpl; lia|].
        replace (q + length (b :: rest))%nat with (S q + length rest)%nat by (simpl; lia).
        rewrite R2, firstn_S_upd by lia. rewrite upd_length in R3. rewrite <- app_assoc.
        repeat split; auto.
    + apply skipn_nth_error in Hs. destruct Hs as [Hn Hs]. rewrite Hn. cbn [obind].
      rewrite N.eqb_refl. apply skipn_nth_error in Hs. destruct Hs as [Hn2 Hs]. rewrite Hn2. cbn [obind].
      rewrite E2.
      destruct (IH fuel (S (S p)) (S q) dend (upd buf q b)) as (buf' & R1 & R2 & R3 & R4).
      * rewrite skipn_upd_gt by lia. exact Hs.
      * lia.
      * lia.
      * rewrite upd_length; lia.
      * simpl in Hf; lia.
      * exists buf'. rewrite R1. split; [do 3 f_equal; simpl; lia|].
        replace (q + length (b :: rest))%nat with (S q + length rest)%nat by (simpl; lia).
        rewrite R2, firstn_S_upd by lia. rewrite upd_length in R3. rewrite <- app_assoc.
        repeat split; auto.
Qed.

Lemma unrestrict_pf r m data : escape_map r = Some m -> good_map r m -> Forall (unamb m) data ->
  unrestrict r (restricted m data) = Some data.
Proof.
  intros Hm G Hu.
  assert (Hb : bytes_ok data) by (eapply Forall_impl; [|exact Hu]; intros ? []; auto).
  unfold unrestrict. destruct (has_no_restrictions r) eqn:HN.
  - unfold has_no_restrictions in HN. apply andb_true_iff in HN. destruct HN as [HN1 HN2].
    apply noesc_nil in HN1. unfold restricted. rewrite (escape_id r m data G HN1 Hb), (gm_nt _ _ G).
    destruct (r_nt r); [discriminate|]. rewrite app_nil_r. auto.
  - rewrite Hm. cbn [obind]. unfold restricted. rewrite (gm_nt _ _ G).
    set (tl := if r_nt r then [0] else []).
    set (noff := if r_nt r then 1%nat else 0%nat).
    assert (Htl : length tl = noff) by (subst tl noff; destruct (r_nt r); auto).
    rewrite app_length, Htl.
    replace (length (escape m data) + noff <? noff)%nat with false by (symmetry; apply Nat.ltb_ge; lia).
    destruct (unesc_loop_correct r m data tl G Hu (S (length (escape m data) + noff)) 0 0
        (length (escape m data) + noff - noff) (escape m data ++ tl)) as (buf' & R1 & R2 & R3 & R4).
    + reflexivity.
    + lia.
    + lia.
    + rewrite app_length; lia.
    + pose proof (escape_ge m data); lia.
    + rewrite R1. cbn [obind]. f_equal.
      match goal with |- firstn ?k _ = _ => replace k with (0 + length data)%nat by lia end.
      rewrite R2. reflexivity.
Qed.

(** when are the bytes unambiguous? *)
Lemma unamb_all r m data : good_map r m -> bytes_ok data ->
  (r_esc r <> [] \/ ~ In 255 data) -> Forall (unamb m) data.
Proof.
  intros G Hb H. unfold bytes_ok in Hb. rewrite Forall_forall in *. intros b Hi.
  specialize (Hb b Hi). split; auto. intros F. destruct H as [H|H].
  - apply (gm_flag _ _ G b Hb F); auto.
  - destruct (r_esc r) eqn:E.
    + destruct (gm_noesc _ _ G E) as (_ & _ & ->). intros ->. auto.
    + apply (gm_flag _ _ G b Hb F). congruence.
Qed.

(** the push side: here the escape byte is only looked at if there are escape bytes *)
Lemma push_all_app m st a b : push_all m st (a ++ b) =
  let (st1, o1) := push_all m st a in let (st2, o2) := push_all m st1 b in (st2, o1 ++ o2).
Proof.
  revert st; induction a as [|c a IH]; intros st; simpl.
  - destruct (push_all m st b); reflexivity.
  - destruct (push_unescape m st c) as [st1 o1]. rewrite IH.
    destruct (push_all m st1 a) as [st2 o2]. destruct (push_all m st2 b) as [st3 o3].
    rewrite app_assoc. reflexivity.
Qed.
Definition pend_of (s : bool) : list N := if s then [0] else [].
Lemma push_one r m b s : good_map r m -> b < 256 ->
  exists s' o, push_all m (false, s) (esc1 m b) = ((false, s'), o) /\ o ++ pend_of s' = pend_of s ++ [b].
Proof.
  intros G Hb. unfold esc1. destruct (look (fe_flag m) b =? 0) eqn:F; simpl negb; cbv iota.
  - assert (H : em_has_escape m && (b =? em_escape_byte m) = false).
    { rewrite (gm_has _ _ G). destruct (has_escape_restrictions r) eqn:HE; auto. simpl.
      apply N.eqb_neq. apply (gm_flag _ _ G b Hb); [lia|].
      intros E. unfold has_escape_restrictions in HE. apply negb_true_iff in HE. apply noesc_nil in E. congruence. }
    simpl. rewrite H. destruct ((b =? 0) && em_nt m) eqn:Z.
    + exists true. eexists. split; [reflexivity|]. assert (b = 0) by lia. subst.
      rewrite app_nil_r. destruct s; reflexivity.
    + exists false. eexists. split; [reflexivity|]. rewrite !app_nil_r. destruct s; reflexivity.
  - assert (H : em_has_escape m = true).
    { rewrite (gm_has _ _ G). unfold has_escape_restrictions. destruct (has_no_escape_restrictions r) eqn:HN; auto.
      apply noesc_nil in HN. destruct (gm_noesc _ _ G HN) as [X _]. rewrite X in F by auto. discriminate. }
    simpl. rewrite H, N.eqb_refl. simpl.
    exists false. eexists. split; [reflexivity|]. simpl. rewrite !app_nil_r.
    rewrite (gm_un _ _ G b Hb) by lia. destruct s; reflexivity.
Qed.
Lemma push_many r m data : good_map r m -> bytes_ok data -> forall s,
  exists s' o, push_all m (false, s) (escape m data) = ((false, s'), o) /\ o ++ pend_of s' = pend_of s ++ data.
Proof.
  intros G Hb. induction Hb as [|b data Hb0 Hb IH]; intros s.
  - exists s, []. split; auto. simpl. rewrite app_nil_r. auto.
  - destruct (push_one r m b s G Hb0) as (s1 & o1 & R1 & R2).
    destruct (IH s1) as (s2 & o2 & R3 & R4).
    exists s2, (o1 ++ o2). simpl escape. rewrite push_all_app, R1, R3. split; auto.
    rewrite <- app_assoc, R4, app_assoc, R2, <- app_assoc. reflexivity.
Qed.
(** with a terminator (or none) appended the pending NUL is the terminator and dropped *)
Lemma ostream_unrestrict_pf r m data : escape_map r = Some m -> good_map r m -> bytes_ok data ->
  ostream_unrestrict r (restricted m data) = Some data.
Proof.
  intros Hm G Hb. unfold ostream_unrestrict. rewrite Hm. cbn [obind]. f_equal.
  unfold restricted. rewrite push_all_app.
  destruct (push_many r m data G Hb false) as (s & o & R1 & R2). rewrite R1. simpl in R2.
  destruct (em_nt m) eqn:NT.
  - assert (H : em_has_escape m && (0 =? em_escape_byte m) = false).
    { apply andb_false_iff. right. apply N.eqb_neq. intros H.
      unfold em_escape_byte in H. destruct (em_rb m) as [|e rb] eqn:E; [discriminate|].
      unfold escape_map in Hm. destruct (r_esc r) as [|z E0] eqn:EE.
      { apply Some_inj in Hm. subst m. discriminate. }
      destruct (pick_repl pool (z :: E0) []) as [|e' rb'] eqn:P; [discriminate|].
      destruct (_ =? _)%nat in Hm; [|discriminate]. apply Some_inj in Hm. subst m. cbn in E.
      apply cons_inj in E. destruct E as [-> ->]. subst e.
      assert (HI : In 0 (pick_repl pool (z :: E0) [])) by (rewrite P; left; auto).
      rewrite pick_repl_spec in HI by (simpl; lia). cbn [app] in HI.
      apply firstn_in in HI. apply filter_In in HI. destruct HI as [HI _].
      unfold pool in HI. simpl in HI. repeat (destruct HI as [HI|HI]; [discriminate|]). auto. }
    cbn [push_all push_unescape]. rewrite H, NT. change ((0 =? 0) && true) with true.
    cbv iota. rewrite <- R2. destruct s; simpl; rewrite ?app_nil_r; reflexivity.
  - simpl. rewrite app_nil_r.
    (* without null termination nothing is ever pending *)
    assert (Hs : forall l st, snd st = false -> snd (fst (push_all m st l)) = false).
    { clear -NT. induction l as [|c l IH]; intros [e s] Hs; simpl in *; auto. subst s.
      rewrite NT, andb_false_r. destruct e.
      - specialize (IH (false, false) eq_refl). destruct (push_all m (false, false) l). auto.
      - destruct (em_has_escape m && (c =? em_escape_byte m)).
        + specialize (IH (true, false) eq_refl). destruct (push_all m (true, false) l). auto.
        + specialize (IH (false, false) eq_refl). destruct (push_all m (false, false) l). auto. }
    specialize (Hs (escape m data) (false, false) eq_refl). rewrite R1 in Hs. simpl in Hs. subst s.
    simpl in R2. rewrite app_nil_r in R2. auto.
Qed.

(** ** Wrap-up *)
Lemma mk_good esc nt : bytes_ok esc ->
  (r_esc (mk_restrictions esc nt) = [] \/
   length (r_esc (mk_restrictions esc nt)) + 1 <= length (free_pool (r_esc (mk_restrictions esc nt))))%nat ->
  exists m, escape_map (mk_restrictions esc nt) = Some m /\ good_map (mk_restrictions esc nt) m.
Proof.
  intros Hb H. apply good_escape_map; auto.
  - apply norm_NoDup.
  - cbn. unfold bytes_ok in *. rewrite Forall_forall in *. intros x Hx. apply Hb, norm_in, Hx.
Qed.
Lemma norm_length l : (length (norm l) <= length l)%nat.
Proof. apply NoDup_incl_length; [apply norm_NoDup|]. intros x Hx. apply norm_in, Hx. Qed.
Lemma free_pool_norm esc : free_pool (norm esc) = free_pool esc.
Proof.
  unfold free_pool. apply filter_ext. intros b. f_equal.
  destruct (byte_in b esc) eqn:E.
  - apply byte_in_spec. apply norm_in. apply byte_in_spec; auto.
  - destruct (byte_in b (norm esc)) eqn:E2; auto. apply byte_in_spec in E2. apply (proj1 (norm_in _ _)) in E2. apply byte_in_spec in E2. congruence.
Qed.
Lemma norm_nodup_len esc : length (norm esc) = length (nodup N.eq_dec esc).
Proof.
  apply Nat.le_antisymm; (apply NoDup_incl_length; [apply norm_NoDup || apply NoDup_nodup|]);
    intros x; rewrite norm_in, nodup_In; auto.
Qed.

(** the terminator-only un-restriction of a buffer loses every 0xFF *)
Lemma unesc_loop_mono m fuel : forall p q dend buf p' q' b',
  unesc_loop m fuel p q dend buf = Some (p', q', b') -> (q <= p)%nat ->
  (p - q <= p' - q')%nat /\ p' = dend /\ (q' <= p')%nat /\ length b' = length buf.
Proof.
  induction fuel as [|fuel IH]; intros p q dend buf p' q' b' H Hq; cbn [unesc_loop] in H.
  - destruct (p =? dend)%nat eqn:E; [|discriminate]. apply Some_inj in H. inversion H; subst.
    apply Nat.eqb_eq in E. repeat split; auto; lia.
  - destruct (p =? dend)%nat eqn:E.
    + apply Some_inj in H. inversion H; subst. apply Nat.eqb_eq in E. repeat split; auto; lia.
    + destruct (nth_error buf p) as [c|]; [|discriminate]. cbn [obind] in H.
      destruct (c =? em_escape_byte m).
      * destruct (nth_error buf (S p)) as [d|]; [|discriminate]. cbn [obind] in H.
        apply IH in H; [|lia]. rewrite upd_length in H. intuition lia.
      * apply IH in H; [|lia]. rewrite upd_length in H. intuition lia.
Qed.
Lemma unesc_loop_loses m fuel : forall p q dend buf p' q' b' i,
  unesc_loop m fuel p q dend buf = Some (p', q', b') -> (q <= p)%nat ->
  (p <= i < dend)%nat -> nth_error buf i = Some (em_escape_byte m) -> (p - q < p' - q')%nat.
Proof.
  induction fuel as [|fuel IH]; intros p q dend buf p' q' b' i H Hq Hi Hn; cbn [unesc_loop] in H.
  - destruct (p =? dend)%nat eqn:E; [|discriminate]. apply Nat.eqb_eq in E. lia.
  - destruct (p =? dend)%nat eqn:E; [apply Nat.eqb_eq in E; lia|].
    destruct (nth_error buf p) as [c|] eqn:Ec; [|discriminate]. cbn [obind] in H.
    destruct (c =? em_escape_byte m) eqn:F.
    + destruct (nth_error buf (S p)) as [d|]; [|discriminate]. cbn [obind] in H.
      apply unesc_loop_mono in H; lia.
    + assert (i <> p) by (intros ->; assert (c <> em_escape_byte m) by (apply N.eqb_neq; auto); congruence).
      apply IH with (i := i) in H; try lia. rewrite nth_error_upd_ne by lia. auto.
Qed.
Lemma unrestrict_loses_pf data : In 255 data -> unrestrict (mk_restrictions [] true) (data ++ [0]) <> Some data.
Proof.
  intros Hi H. destruct (In_nth_error _ _ Hi) as [i Hn].
  assert (Hil : (i < length data)%nat) by (apply nth_error_Some; congruence).
  unfold unrestrict in H. change (has_no_restrictions (mk_restrictions [] true)) with false in H. cbv iota in H.
  change (escape_map (mk_restrictions [] true)) with (Some (mk_em [] [] true)) in H. cbn [obind] in H.
  change (r_nt (mk_restrictions [] true)) with true in H. cbv iota in H.
  rewrite app_length in H. cbn [length] in H.
  destruct (_ <? _)%nat; [discriminate|].
  destruct (unesc_loop _ _ _ _ _ _) as [[[p q] b]|] eqn:L; [|discriminate]. cbn [obind] in H.
  apply Some_inj in H. apply (f_equal (@length N)) in H.
  pose proof (unesc_loop_mono _ _ _ _ _ _ _ _ _ L (le_n 0)) as (_ & -> & _ & HL).
  apply unesc_loop_loses with (i := i) in L; try lia.
  - rewrite firstn_length in H. lia.
  - rewrite nth_error_app1 by auto. rewrite Hn. reflexivity.
Qed.
Lemma escape_map_none_pf esc nt : (13 <= length (nodup N.eq_dec esc))%nat -> escape_map (mk_restrictions esc nt) = None.
Proof.
  rewrite <- norm_nodup_len. intros H. unfold escape_map, mk_restrictions. cbn [r_esc r_nt].
  fold (norm esc). destruct (norm esc) as [|z E] eqn:EE; [simpl in H; lia|]. rewrite <- EE in *.
  destruct (pick_repl pool (norm esc) []) as [|e R] eqn:P; auto.
  assert (L : (length (e :: R) <= 13)%nat).
  { rewrite <- P, pick_repl_spec by (simpl; lia). cbn [app]. rewrite firstn_length.
    pose proof (filter_len_split (fun b => negb (byte_in b (norm esc))) pool) as X.
    change (length pool) with 13%nat in X. rewrite <- X. eapply Nat.le_trans; [apply Nat.le_min_r|apply Nat.le_add_r]. }
  replace (length (e :: R) =? length (e :: norm esc))%nat with false; auto.
  symmetry. apply Nat.eqb_neq. cbn [length] in *. lia.
Qed.
