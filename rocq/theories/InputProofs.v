From Verif Require Import Base Escape EscapeProofs PropEscape InputObj InputSpec.
Local Open Scope nat_scope.

Lemma usable_good r : usable r -> exists m, escape_map r = Some m /\ good_map r m.
Proof. intros (e & n & -> & H1 & H2). apply enough_good; auto. Qed.
Lemma bytes_firstn k l : bytes_ok l -> bytes_ok (firstn k l).
Proof. unfold bytes_ok. rewrite !Forall_forall. intros H x Hx. apply H. eapply firstn_in; eauto. Qed.
Lemma bytes_skipn k l : bytes_ok l -> bytes_ok (skipn k l).
Proof. unfold bytes_ok. rewrite !Forall_forall. intros H x Hx. apply H. rewrite <- (firstn_skipn k l). apply in_or_app; auto. Qed.
Lemma bytes_part data f t : bytes_ok data -> bytes_ok (part data f t).
Proof. intros. apply bytes_firstn, bytes_skipn. auto. Qed.
Lemma vslice_part data f t : in_range data f t -> vslice data f t = Some (part data f t).
Proof.
  intros [H1 H2]. unfold vslice, part.
  apply Nat.leb_le in H1, H2. rewrite H1, H2. reflexivity.
Qed.
Lemma vslice_out data f t : ~ in_range data f t -> vslice data f t = None.
Proof.
  intros H. unfold vslice, in_range in *. destruct (Nat.leb_spec f (match t with Some t => t | None => length data end)); auto.
  destruct (Nat.leb_spec (match t with Some t => t | None => length data end) (length data)); auto. tauto.
Qed.
Lemma part_tail data f : in_range data f None -> part data f None = skipn f data.
Proof. intros [H _]. unfold part. apply firstn_all2. rewrite skipn_length. lia. Qed.
Lemma part_length data f t : in_range data f t ->
  length (part data f t) = match t with Some t => t | None => length data end - f.
Proof. intros [H1 H2]. unfold part. rewrite firstn_length, skipn_length. lia. Qed.

Lemma all_agree r s junk : usable r -> bytes_ok s ->
  exists b, restrict_view r s = Some b /\ restrict_file r s junk = Some b /\ apply_istream r s = Some b /\
    (has_no_restrictions r = true -> b = s) /\ restrict_stream r s = Some b.
Proof.
  intros (e & n & -> & H1 & H2) Hs.
  destruct (restriction_removes_forbidden e n s junk H1 H2 Hs) as (body & B1 & B2 & B3 & B4 & B5 & B6 & B7).
  exists (body ++ terminator n). split; auto. split; auto. unfold apply_istream.
  destruct (has_no_restrictions (mk_restrictions e n)) eqn:E.
  - assert (X : restrict_file (mk_restrictions e n) s junk = Some s).
    { unfold restrict_file. destruct (enough_good e n H1 H2) as (m & -> & _). cbn [obind]. rewrite E. reflexivity. }
    rewrite X in B4. apply Some_inj in B4. rewrite <- B4 in *. auto.
  - split; auto. split; [discriminate|auto].
Qed.

Lemma part_part data a b c d : in_range data a b -> in_range (part data a b) c d -> (d = None -> b = None) ->
  in_range data (a + c) (option_map (fun x => a + x) d) /\
  part (part data a b) c d = part data (a + c) (option_map (fun x => a + x) d).
Proof.
  intros H1 H2 H3. pose proof (part_length data a b H1) as PL.
  assert (SK : forall (l : list N) x y, skipn x (skipn y l) = skipn (y + x) l).
  { induction l as [|z l IH]; intros x [|y]; simpl; auto. destruct x; auto. }
  assert (FF : forall (l : list N) x y k, x + y <= k -> firstn y (skipn x (firstn k l)) = firstn y (skipn x l)).
  { clear. induction l as [|z l IH]; intros x y k H; [rewrite firstn_nil; reflexivity|].
    destruct k; [simpl; assert (x = 0 /\ y = 0) as [-> ->] by lia; reflexivity|].
    destruct x as [|x]; [|simpl; apply IH; lia]. cbn [skipn]. destruct y; auto. cbn [firstn]. f_equal.
    specialize (IH 0 y k). cbn [skipn] in IH. apply IH. lia. }
  destruct H1 as [H1a H1b]. destruct H2 as [H2a H2b]. rewrite PL in *.
  destruct d as [d|].
  - cbn [option_map] in *. split; [split; destruct b; lia|]. unfold part at 1. unfold part at 1.
    rewrite FF by (destruct b; lia). rewrite SK. unfold part. f_equal. lia.
  - specialize (H3 eq_refl). subst b. cbn [option_map] in *. split; [split; lia|].
    rewrite part_tail by (split; [rewrite PL; lia|lia]). rewrite part_tail by (split; lia). rewrite part_tail by (split; lia).
    apply SK.
Qed.

Lemma derive_ok l : forall data i, in_range data (i_from i) (i_to i) ->
  proper (match i_to i with Some _ => true | None => false end) (part data (i_from i) (i_to i)) l ->
  i_src (derive i l) = i_src i /\
  in_range data (i_from (derive i l)) (i_to (derive i l)) /\
  meant (part data (i_from i) (i_to i)) (i_restr i) l =
    (part data (i_from (derive i l)) (i_to (derive i l)), i_restr (derive i l)).
Proof.
  induction l as [|[f t|r] l IH]; intros data i R P; cbn [derive meant proper] in *.
  - auto.
  - destruct P as (P1 & P2 & P3).
    destruct (part_part data (i_from i) (i_to i) f t R P1) as (Q1 & Q2).
    { intros E. specialize (P2 E). destruct (i_to i); [discriminate|auto]. }
    assert (ET : i_to (in_slice i f t) = option_map (fun x => i_from i + x) t) by (unfold in_slice; cbn [i_to]; destruct t; auto).
    assert (EF : i_from (in_slice i f t) = i_from i + f) by reflexivity.
    specialize (IH data (in_slice i f t)). rewrite ET, EF in IH. rewrite <- Q2 in IH. apply IH; auto.
    destruct t; cbn [option_map] in *; auto. 1: rewrite orb_true_r in P3; auto.
    rewrite orb_false_r in P3. rewrite (P2 eq_refl) in P3. auto.
  - apply (IH data (in_restrict i r)); auto.
Qed.

(** *** the shared stream buffer *)
Lemma restr_eq_true a b : restr_eq a b = true <-> a = b.
Proof. apply restr_eq_spec_pf. Qed.

Lemma escape_byte_ok r m : usable r -> r_esc r <> [] -> escape_map r = Some m ->
  em_escape_byte m = escape_byte_of r /\ look (fe_map m) (em_escape_byte m) = em_escape_byte m.
Proof.
  intros (e & n & Er & H1 & H2) Hne Hm.
  assert (L : length (r_esc r) + 1 <= length (free_pool (r_esc r))).
  { destruct H2 as [->|H2]; [subst r; destruct (Hne eq_refl)|]. subst r. cbn [mk_restrictions r_esc]. fold (norm e).
    rewrite norm_nodup_len, free_pool_norm. exact H2. }
  destruct (escape_map_ok r Hne L) as (x & R & F & M & _ & ND & HR). rewrite M in Hm. injection Hm as <-.
  cbn [em_escape_byte em_rb]. split.
  - unfold escape_byte_of. change (filter _ _) with (free_pool (r_esc r)).
    destruct (free_pool (r_esc r)); [rewrite firstn_nil in F; discriminate|].
    replace (length (r_esc r) + 1) with (S (length (r_esc r))) in F by lia. cbn [firstn] in F. injection F as <- _. reflexivity.
  - destruct (HR x (or_introl eq_refl)) as [Hb Hx]. unfold fe_map. cbn [em_eb em_rb table_set].
    rewrite table_set_notin by exact Hx. unfold look. apply nth_upd_eq. rewrite ident_len. lia.
Qed.

Lemma scan_escape r m eb l : usable r -> r_esc r <> [] -> escape_map r = Some m -> good_map r m -> eb = em_escape_byte m ->
  bytes_ok l -> ~ In eb l -> forall rest i u,
  scan (escape m l ++ rest) eb i u (u + length l) = scan rest eb (i + length (escape m l)) (u + length l) (u + length l).
Proof.
  intros U Hne M G -> . destruct (escape_byte_ok r m U Hne M) as [_ FE].
  set (eb := em_escape_byte m) in *.
  induction l as [|b l IH]; intros Hb Hn rest i u.
  - cbn [escape flat_map app length]. rewrite !Nat.add_0_r. reflexivity.
  - inversion Hb as [|? ? Hb1 Hb2]; subst. unfold byte_ok in Hb1.
    assert (Nb : b <> eb) by (intros ->; apply Hn; left; auto).
    assert (Nl : ~ In eb l) by (intros X; apply Hn; right; auto).
    cbn [escape flat_map]. fold (escape m l). rewrite <- app_assoc.
    replace (u + length (b :: l)) with (S u + length l) by (cbn [length]; lia).
    assert (T : (u =? S u + length l) = false) by (apply Nat.eqb_neq; lia).
    unfold esc1. destruct (N.eqb_spec (look (fe_flag m) b) 0) as [F|F]; cbn [negb app scan].
    + rewrite T. apply N.eqb_neq in Nb. rewrite Nb. rewrite IH by auto. f_equal. cbn [length app]. lia.
    + rewrite T. fold eb. rewrite N.eqb_refl. cbn [scan]. rewrite T.
      assert (Y : look (fe_map m) b <> eb).
      { intros E. pose proof (gm_un _ _ G b Hb1 F) as X. rewrite E in X.
        assert (EB : (eb < 256)%N).
        { apply (gm_byte _ _ G b eb Hb1). unfold esc1. apply N.eqb_neq in F. rewrite F. left; reflexivity. }
        assert (FF : look (fe_flag m) eb <> 0%N).
        { intros Z. apply (gm_flag _ _ G eb EB Z); auto. }
        pose proof (gm_un _ _ G eb EB FF) as W. rewrite FE in W. congruence. }
      apply N.eqb_neq in Y. rewrite Y. rewrite IH by auto. f_equal. cbn [length app]. lia.
Qed.
Lemma scan_hit v eb i u : v <> [] -> scan v eb i u u = (Some i, v, i, u).
Proof. destruct v; [congruence|]. intros _. cbn [scan]. rewrite Nat.eqb_refl. reflexivity. Qed.

Lemma restricted_eq r m s : good_map r m -> restricted m s = escape m s ++ terminator (r_nt r).
Proof. intros G. unfold restricted. rewrite (gm_nt _ _ G). reflexivity. Qed.
Lemma escape_length_le m l : length l <= length (escape m l).
Proof. apply escape_ge. Qed.

Lemma skipn_app_exact {A} (a b : list A) : skipn (length a) (a ++ b) = b.
Proof. rewrite skipn_app, skipn_all, Nat.sub_diag. reflexivity. Qed.
Lemma firstn_app_exact {A} (a b : list A) : firstn (length a) (a ++ b) = a.
Proof. rewrite firstn_app, Nat.sub_diag, firstn_all, firstn_O, app_nil_r. reflexivity. Qed.

Lemma split_at {A} (l : list A) k : l = firstn k l ++ skipn k l.
Proof. symmetry. apply firstn_skipn. Qed.

Lemma slice_root_ok data r f t v : bytes_ok data -> good_request data f t r -> (f = 0 /\ t = None -> False) ->
  restrict_view r data = Some v ->
  exists b, slice_root r v f t = Some b /\ shows r (part data f t) b.
Proof.
  intros Hd (U & R & NT & N255 & E) Hw V. destruct (usable_good r U) as (m & M & G).
  rewrite (restrict_view_pf r m) in V by auto. injection V as <-.
  unfold shows. rewrite (restrict_view_pf r m) by (auto; apply bytes_part; auto).
  rewrite !(restricted_eq r m) by auto. eexists. split; [|reflexivity].
  pose proof R as [R1 R2]. unfold slice_root. rewrite M.
  destruct (has_no_escape_restrictions r) eqn:NE.
  - apply noesc_nil in NE. rewrite !(escape_id r m) by (auto; apply bytes_part; auto). cbn [obind].
    destruct t as [t|].
    + destruct (r_nt r) eqn:Ent; [specialize (NT eq_refl); discriminate|]. cbn [andb terminator].
      rewrite !app_nil_r. apply vslice_part. auto.
    + rewrite andb_false_r. rewrite part_tail by auto. rewrite vslice_part by (split; [rewrite app_length; lia|lia]).
      rewrite part_tail by (split; [rewrite app_length; lia|lia]).
      rewrite skipn_app. replace (f - length data) with 0 by lia. reflexivity.
  - assert (Hne : r_esc r <> []) by (intros X; apply noesc_nil in X; congruence).
    destruct (E Hne) as [X|(E1 & E2 & E3)]; [tauto|].
    destruct (escape_byte_ok r m U Hne M) as [EB _]. cbn [obind]. rewrite <- EB in E3.
    set (eb := em_escape_byte m) in *.
    assert (Hf : ~ In eb (firstn f data)).
    { intros X. apply E3. destruct t as [t|]; auto.
      assert (P : firstn f data = firstn f (firstn t data)) by (rewrite firstn_firstn; f_equal; lia).
      rewrite P in X. eapply firstn_in; eauto. }
    assert (Lf : length (firstn f data) = f) by (rewrite firstn_length; destruct t; lia).
    pose proof (scan_escape r m eb (firstn f data) U Hne M G eq_refl (bytes_firstn f data Hd) Hf
                  (escape m (skipn f data) ++ terminator (r_nt r)) 0 0) as S1.
    rewrite app_assoc, <- escape_app, firstn_skipn, Lf in S1. cbn [Nat.add] in S1.
    assert (HT : escape m (skipn f data) ++ terminator (r_nt r) <> []).
    { intros X. apply app_eq_nil in X. destruct X as [X1 X2].
      assert (LX : length (skipn f data) <= 0) by (pose proof (escape_ge m (skipn f data)) as Q; rewrite X1 in Q; exact Q).
      rewrite skipn_length in LX. destruct E1 as [E1|E1]; [lia|]. rewrite E1 in X2. discriminate. }
    rewrite (scan_hit _ eb _ f HT) in S1. rewrite S1.
    set (L1 := length (escape m (firstn f data))) in *.
    assert (VE : escape m data = escape m (firstn f data) ++ escape m (skipn f data)).
    { rewrite <- escape_app, firstn_skipn. reflexivity. }
    destruct t as [t|].
    + destruct (r_nt r) eqn:Ent; [specialize (NT eq_refl); discriminate|]. cbn [terminator] in *.
      rewrite !app_nil_r in *.
      set (p := part data f (Some t)).
      assert (Lp : length p = t - f) by (apply (part_length data f (Some t)); auto).
      assert (Np : ~ In eb p).
      { intros X. apply E3. apply firstn_in with (n := length p). 
        exfalso. apply E3. assert (P : firstn t data = firstn f data ++ p).
        { unfold p, part. rewrite <- (firstn_skipn f (firstn t data)), firstn_firstn. rewrite skipn_firstn_comm.
          f_equal. f_equal. lia. }
        rewrite P. apply in_or_app. auto. }
      assert (PS : skipn f data = p ++ skipn t data).
      { unfold p, part. rewrite (split_at (skipn f data) (t - f)) at 1. f_equal.
        assert (SK : forall (l : list N) x y, skipn x (skipn y l) = skipn (y + x) l).
        { clear. induction l as [|z l IH]; intros x [|y]; simpl; auto. destruct x; auto. }
        rewrite SK. f_equal. lia. }
      pose proof (scan_escape r m eb p U Hne M G eq_refl (bytes_part data f (Some t) Hd) Np (escape m (skipn t data)) L1 f) as S2.
      rewrite <- escape_app, <- PS, Lp in S2. replace (f + (t - f)) with t in S2 by lia.
      rewrite S2. specialize (E2 t eq_refl).
      rewrite scan_hit.
      2: { intros X. pose proof (escape_ge m (skipn t data)) as Q. rewrite X in Q. rewrite skipn_length in Q. cbn [length] in Q. lia. }
      cbn [obind andb]. rewrite vslice_part.
      * f_equal. unfold part. replace (L1 + length (escape m p) - L1) with (length (escape m p)) by lia.
        rewrite VE. unfold L1. rewrite skipn_app_exact. rewrite PS, escape_app. rewrite firstn_app_exact. reflexivity.
      * split; [lia|]. rewrite VE, PS, escape_app, !app_length. unfold L1. lia.
    + cbn [obind]. rewrite andb_false_r. rewrite vslice_part by (split; [rewrite VE, !app_length; unfold L1; lia|lia]).
      f_equal. rewrite part_tail by (split; [rewrite VE, !app_length; unfold L1; lia|lia]).
      rewrite part_tail by auto. rewrite VE, <- app_assoc. unfold L1. rewrite skipn_app_exact. reflexivity.
Qed.

Lemma change_ok data r r' v : bytes_ok data -> usable r -> usable r' ->
  (r_esc r = [] -> r_nt r = true -> ~ In 255%N data) -> restrict_view r data = Some v ->
  exists v', change_restrictions r r' v = Some v' /\ restrict_view r' data = Some v'.
Proof.
  intros Hd (e & n & Er & H1 & H2) (e' & n' & -> & H3 & H4) H V.
  destruct (change_restrictions_correct e n e' n' data H1 H2 H3 H4 Hd) as (buf & B1 & B2).
  { destruct e as [|x e]; [|left; discriminate]. destruct n; [|auto]. right; right. subst r. apply H; reflexivity. }
  subst r. rewrite V in B1. injection B1 as <-. rewrite B2.
  destruct (all_agree (mk_restrictions e' n') data (fun _ => 0%N)) as (b & B & _); [exists e', n'; auto|auto|].
  exists b. auto.
Qed.

Lemma NoDup_snoc {A} (l : list A) x : NoDup l -> ~ In x l -> NoDup (l ++ [x]).
Proof.
  induction l as [|y l IH]; intros H1 H2; cbn [app]; [constructor; auto|].
  inversion H1; subst. constructor; [|apply IH; auto; intros X; apply H2; right; auto].
  rewrite in_app_iff. intros [X|[X|[]]]; auto. apply H2. left; auto.
Qed.
(** *** The invariant of the pool *)
Record pool_ok (data : list N) (st : pool_st) : Prop := {
  po_none : p_root st = None -> p_kids st = [] /\ p_open st = [];
  po_root : forall r v, p_root st = Some (r, v) -> usable r /\ (r_esc r = [] -> r_nt r = true -> ~ In 255%N data) /\
              restrict_view r data = Some v;
  po_kids : forall k r v, In k (p_kids st) -> p_root st = Some (r, v) ->
              k_id k < p_next st /\ shows r (part data (k_from k) (k_to k)) (k_bytes k) /\
              exists h, In (h, Some (k_id k)) (p_open st);
  po_ids : NoDup (map k_id (p_kids st));
  po_open : NoDup (map fst (p_open st)) }.

Lemma same_to_true a b : same_to a b = true <-> a = b.
Proof.
  destruct a as [a|], b as [b|]; cbn [same_to]; try (split; congruence).
  rewrite Nat.eqb_eq. split; congruence.
Qed.
Lemma whole_spec f t : (f =? 0) && same_to t None = true <-> f = 0 /\ t = None.
Proof. rewrite andb_true_iff, Nat.eqb_eq, same_to_true. tauto. Qed.

(** find_or_construct keeps everything except that it may add a slice without a handle *)
Definition foc_post (data : list N) (st st1 : pool_st) (f : nat) (t : option nat) (r : restr) (c : option nat) (b : list N) : Prop :=
  shows r (part data f t) b /\ p_open st1 = p_open st /\ (exists v, p_root st1 = Some (r, v) /\ restrict_view r data = Some v) /\
  (forall k, In k (p_kids st1) -> k_id k < p_next st1 /\ shows r (part data (k_from k) (k_to k)) (k_bytes k) /\
     ((exists h, In (h, Some (k_id k)) (p_open st)) \/ c = Some (k_id k))) /\
  NoDup (map k_id (p_kids st1)).

Lemma foc_ok data st f t r : bytes_ok data -> pool_ok data st -> good_request data f t r ->
  (p_open st <> [] -> option_map fst (p_root st) = Some r) ->
  exists st1 c b, find_or_construct data st f t r = Some (st1, (c, b)) /\ foc_post data st st1 f t r c b.
Proof.
  intros Hd I Q Hc. pose proof Q as (U & R & _). unfold find_or_construct.
  pose proof (whole_spec f t) as WS.
  assert (PW : f = 0 /\ t = None -> part data f t = data) by (intros [-> ->]; apply part_tail; auto).
  destruct (p_root st) as [[r0 v0]|] eqn:ER.
  - destruct (po_root _ _ I r0 v0 ER) as (U0 & N0 & V0).
    assert (KI : forall k, In k (p_kids st) -> k_id k < p_next st /\ shows r0 (part data (k_from k) (k_to k)) (k_bytes k) /\
               exists h, In (h, Some (k_id k)) (p_open st)) by (intros k Hk; eapply po_kids; eauto).
    destruct (restr_eq r0 r) eqn:EQ.
    + apply restr_eq_true in EQ. subst r0. rewrite andb_true_r.
      destruct ((f =? 0) && same_to t None) eqn:W.
      * pose proof (proj1 WS eq_refl) as W'. exists st, None, v0. split; auto. repeat split; auto.
        -- unfold shows. rewrite PW by auto. auto.
        -- exists v0. auto.
        -- eapply KI; eauto.
        -- eapply KI; eauto.
        -- left. eapply KI; eauto.
        -- apply I.
      * destruct (find _ (p_kids st)) as [k|] eqn:F.
        -- apply find_some in F. destruct F as [F1 F2]. apply andb_true_iff in F2. destruct F2 as [F2 F3].
           apply Nat.eqb_eq in F2. apply same_to_true in F3.
           exists st, (Some (k_id k)), (k_bytes k). split; auto. destruct (KI k F1) as (K1 & K2 & K3).
           repeat split; auto.
           ++ rewrite F2, F3 in K2. auto.
           ++ exists v0; auto.
           ++ eapply KI; eauto.
           ++ eapply KI; eauto.
           ++ left. eapply KI; eauto.
           ++ apply I.
        -- cbn [obind]. assert (NW : f = 0 /\ t = None -> False).
           { intros X. destruct WS as [_ WS]. specialize (WS X). discriminate. }
           destruct (slice_root_ok data r f t v0 Hd Q NW V0) as (b & B1 & B2). rewrite B1. cbn [obind].
           eexists _, _, b. split; [reflexivity|]. unfold foc_post. cbn [p_open p_root p_kids p_next].
           split; auto. split; auto. split; [exists v0; auto|]. split.
           ++ intros k Hk. apply in_app_iff in Hk. destruct Hk as [Hk|[<-|[]]].
              ** destruct (KI k Hk) as (K1 & K2 & K3). split; [lia|]. split; auto.
              ** cbn [k_id k_from k_to k_bytes]. split; [lia|]. split; auto.
           ++ rewrite map_app. cbn [map k_id]. apply NoDup_snoc.
              ** apply I.
              ** intros X. apply in_map_iff in X. destruct X as (k & K1 & K2). destruct (KI k K2) as (K3 & _). lia.
    + rewrite andb_false_r.
      assert (NR : r0 <> r) by (intros ->; assert (restr_eq r r = true) by (apply restr_eq_true; auto); congruence).
      assert (Op : p_open st = []).
      { destruct (p_open st) as [|o os] eqn:EO; auto. exfalso. assert (X : o :: os <> []) by discriminate. specialize (Hc X). cbn [option_map fst] in Hc. congruence. }
      assert (Ki : p_kids st = []).
      { destruct (p_kids st) as [|k ks] eqn:EK; auto. destruct (KI k) as (_ & _ & h & Hh); [left; auto|].
        rewrite Op in Hh. destruct Hh. }
      rewrite Ki, Op. destruct (change_ok data r0 r v0 Hd U0 U N0 V0) as (v & C1 & C2). rewrite C1. cbn [obind].
      destruct ((f =? 0) && same_to t None) eqn:W.
      * pose proof (proj1 WS eq_refl) as W'. eexists _, None, v. split; [reflexivity|].
        unfold foc_post. cbn [p_open p_root p_kids p_next]. split; [unfold shows; rewrite PW by auto; auto|].
        split; auto. split; [exists v; auto|]. split; [intros k []|constructor].
      * assert (NW : f = 0 /\ t = None -> False).
        { intros X. destruct WS as [_ WS]. specialize (WS X). discriminate. }
        destruct (slice_root_ok data r f t v Hd Q NW C2) as (b & B1 & B2). rewrite B1. cbn [obind].
        eexists _, _, b. split; [reflexivity|]. unfold foc_post. cbn [p_open p_root p_kids p_next app].
        split; auto. split; auto. split; [exists v; auto|]. split.
        -- intros k [<-|[]]. cbn [k_id k_from k_to k_bytes]. split; [lia|]. split; auto.
        -- constructor; [simpl; tauto|constructor].
  - destruct (po_none _ _ I ER) as [Ki Op]. rewrite Ki, Op.
    destruct (all_agree r data (fun _ => 0%N) U Hd) as (v & V1 & _ & _ & _ & V5). rewrite V5. cbn [obind].
    destruct ((f =? 0) && same_to t None) eqn:W.
    + pose proof (proj1 WS eq_refl) as W'. eexists _, None, v. split; [reflexivity|].
      unfold foc_post. cbn [p_open p_root p_kids p_next]. split; [unfold shows; rewrite PW by auto; auto|].
      split; auto. split; [exists v; auto|]. split; [intros k []|constructor].
    + assert (NW : f = 0 /\ t = None -> False).
      { intros X. destruct WS as [_ WS]. specialize (WS X). discriminate. }
      destruct (slice_root_ok data r f t v Hd Q NW V1) as (b & B1 & B2). rewrite B1. cbn [obind].
      eexists _, _, b. split; [reflexivity|]. unfold foc_post. cbn [p_open p_root p_kids p_next app].
      split; auto. split; auto. split; [exists v; auto|]. split.
      -- intros k [<-|[]]. cbn [k_id k_from k_to k_bytes]. split; [lia|]. split; auto.
      -- constructor; [simpl; tauto|constructor].
Qed.

Lemma foc_conflict data st f t r : pool_ok data st -> p_open st <> [] -> option_map fst (p_root st) <> Some r ->
  find_or_construct data st f t r = None.
Proof.
  intros I Ho Hr. unfold find_or_construct. destruct (p_root st) as [[r0 v0]|] eqn:ER.
  - cbn [option_map fst] in Hr. destruct (restr_eq r0 r) eqn:EQ; [apply restr_eq_true in EQ; subst; congruence|].
    rewrite andb_false_r. destruct (p_kids st), (p_open st); try reflexivity. congruence.
  - destruct (po_none _ _ I ER). congruence.
Qed.

Lemma map_fst_filter h (l : list (nat * option nat)) :
  map fst (filter (fun x => negb (fst x =? h)) l) = remove Nat.eq_dec h (map fst l).
Proof.
  induction l as [|[a c] l IH]; cbn [filter map fst remove]; auto.
  destruct (Nat.eq_dec h a) as [->|E]; [rewrite Nat.eqb_refl; cbn [negb]; auto|].
  destruct (Nat.eqb_spec a h); [congruence|]. cbn [negb map fst]. f_equal. auto.
Qed.
Lemma remove_none h l : ~ In h l -> remove Nat.eq_dec h l = l.
Proof. apply notin_remove. Qed.
Lemma NoDup_filter_map {A B} (g : A -> B) (p : A -> bool) l : NoDup (map g l) -> NoDup (map g (filter p l)).
Proof.
  induction l as [|x l IH]; cbn [map filter]; auto. intros H. inversion H; subst.
  destruct (p x); auto. cbn [map]. constructor; auto. intros X. apply in_map_iff in X. destruct X as (y & Y1 & Y2).
  apply filter_In in Y2. apply H2. apply in_map_iff. exists y. tauto.
Qed.

Lemma unregister_open st c : p_open (unregister st c) = p_open st.
Proof. destruct c; reflexivity. Qed.
Lemma unregister_root st c : p_root (unregister st c) = p_root st.
Proof. destruct c; reflexivity. Qed.

Definition request (a : access) : option (nat * option nat * restr) :=
  match a with AView _ f t r | AStream _ f t r => Some (f, t, r) | ASize f t r => Some (f, t, r) | AClose _ => None end.
Definition opens (a : access) : list nat := match a with AView h _ _ _ | AStream h _ _ _ => [h] | _ => [] end.

Lemma access_ok data st a f t r : bytes_ok data -> pool_ok data st -> request a = Some (f, t, r) ->
  good_request data f t r -> (forall h, In h (opens a) -> ~ In h (map fst (p_open st))) ->
  (p_open st <> [] -> option_map fst (p_root st) = Some r) ->
  exists st1 x, do_access data st a = Some (st1, x) /\ right_answer data a x /\ pool_ok data st1 /\
    map fst (p_open st1) = opens a ++ map fst (p_open st) /\ option_map fst (p_root st1) = Some r.
Proof.
  intros Hd I Ha Q Hf Hc. destruct (foc_ok data st f t r Hd I Q Hc) as (st1 & c & b & F & P1 & P2 & (v & P3 & P4) & P5 & P6).
  pose proof Q as (U & _ & _ & N255 & _).
  assert (OPENED : forall h, ~ In h (map fst (p_open st)) -> NoDup (map fst ((h, c) :: p_open st))).
  { intros h Hh. cbn [map fst]. constructor; auto. apply I. }
  assert (UNREG : forall op, (op = p_open st \/ exists h, op = (h, c) :: p_open st) -> NoDup (map fst op) ->
     pool_ok data (unregister (mk_pool (p_root st1) (p_kids st1) op (p_next st1)) c)).
  { intros op Hop Hnd.
    assert (KK : forall k, In k (p_kids (unregister (mk_pool (p_root st1) (p_kids st1) op (p_next st1)) c)) ->
       In k (p_kids st1) /\ c <> Some (k_id k)).
    { destruct c as [id|]; cbn [unregister p_kids]; [|intros k Hk; split; [auto|discriminate]].
      intros k Hk. apply filter_In in Hk. destruct Hk as [K1 K2]. split; auto. intros X. injection X as ->.
      rewrite Nat.eqb_refl in K2. discriminate. }
    split.
    - rewrite unregister_root. cbn [p_root]. rewrite P3. discriminate.
    - rewrite unregister_root. cbn [p_root]. rewrite P3. intros r1 v1 E. injection E as <- <-. auto.
    - intros k r1 v1 Hk Hr. rewrite unregister_root in Hr. cbn [p_root] in Hr. rewrite P3 in Hr. injection Hr as <- <-.
      destruct (KK k Hk) as [K1 K2]. destruct (P5 k K1) as (K3 & K4 & K5).
      split; [destruct c; cbn [unregister p_next]; auto|]. split; auto. rewrite unregister_open. cbn [p_open].
      destruct K5 as [[h K5]|K5]; [|congruence]. exists h. destruct Hop as [->|[h' ->]]; auto. right; auto.
    - destruct c as [id|]; cbn [unregister p_kids]; auto. apply NoDup_filter_map. auto.
    - rewrite unregister_open. auto. }
  destruct a as [h f' t' r'|h f' t' r'|f' t' r'|h]; cbn [request] in Ha; try discriminate; injection Ha as -> -> ->;
    cbn [do_access]; rewrite F; cbn [obind opens app].
  - eexists _, _. split; [reflexivity|]. cbn [right_answer]. split; [exists b; auto|].
    unfold open_handle. cbn [p_open p_root]. rewrite P2, P3. split; [|split; [reflexivity|reflexivity]].
    split; cbn [p_root p_kids p_open p_next].
    + discriminate.
    + intros r1 v1 E. injection E as <- <-. auto.
    + intros k r1 v1 Hk E. injection E as <- <-. destruct (P5 k Hk) as (K3 & K4 & K5).
      split; auto. split; auto. destruct K5 as [[h' K5]|K5]; [exists h'; right; auto|exists h; left; congruence].
    + auto.
    + apply OPENED. apply Hf. left; auto.
  - eexists _, _. split; [reflexivity|]. cbn [right_answer]. split; [exists b; auto|].
    rewrite unregister_open, unregister_root. unfold open_handle. cbn [p_open p_root]. rewrite P2.
    split; [|split; [reflexivity|rewrite P3; reflexivity]].
    apply UNREG; [right; exists h; auto|]. apply OPENED. apply Hf. left; auto.
  - eexists _, _. split; [reflexivity|]. cbn [right_answer]. split; [exists b; auto|].
    rewrite unregister_open, unregister_root, P2, P3. split; [|split; reflexivity].
    replace st1 with (mk_pool (p_root st1) (p_kids st1) (p_open st) (p_next st1)) by (rewrite <- P2; destruct st1; reflexivity).
    apply UNREG; auto. apply I.
Qed.

Lemma close_ok data st h : pool_ok data st -> In h (map fst (p_open st)) ->
  exists st1, do_access data st (AClose h) = Some (st1, RDone) /\ pool_ok data st1 /\
    map fst (p_open st1) = remove Nat.eq_dec h (map fst (p_open st)) /\ p_root st1 = p_root st.
Proof.
  intros I Hh. cbn [do_access].
  destruct (find (fun x => fst x =? h) (p_open st)) as [[h' c]|] eqn:F.
  2: { exfalso. apply in_map_iff in Hh. destruct Hh as (x & X1 & X2).
       pose proof (find_none _ _ F x X2) as X3. cbn beta in X3. rewrite X1, Nat.eqb_refl in X3. discriminate. }
  apply find_some in F. destruct F as [F1 F2]. cbn [fst] in F2. apply Nat.eqb_eq in F2. subst h'.
  eexists. split; [reflexivity|]. rewrite unregister_open, unregister_root. cbn [p_open p_root].
  rewrite map_fst_filter. split; [|split; reflexivity].
  split.
  - rewrite unregister_root. cbn [p_root]. intros E. destruct (po_none _ _ I E) as [_ X]. rewrite X in F1. destruct F1.
  - rewrite unregister_root. cbn [p_root]. apply I.
  - intros k r v Hk Hr. rewrite unregister_root in Hr. cbn [p_root] in Hr.
    assert (KK : In k (p_kids st) /\ c <> Some (k_id k)).
    { destruct c as [id|]; cbn [unregister p_kids] in Hk; [|split; [auto|discriminate]].
      apply filter_In in Hk. destruct Hk as [K1 K2]. split; auto. intros X. injection X as ->.
      rewrite Nat.eqb_refl in K2. discriminate. }
    destruct KK as [K1 K2]. destruct (po_kids _ _ I k r v K1 Hr) as (K3 & K4 & h1 & K5).
    split; [destruct c; cbn [unregister p_next]; auto|]. split; auto. rewrite unregister_open. cbn [p_open].
    exists h1. apply filter_In. split; auto. cbn [fst]. destruct (Nat.eqb_spec h1 h) as [->|]; auto.
    exfalso. apply K2. pose proof (po_open _ _ I) as ND. clear -F1 K5 ND.
    induction (p_open st) as [|[a d] l IH]; [destruct F1|]. cbn [map fst] in ND. inversion ND; subst.
    destruct F1 as [F1|F1], K5 as [K5|K5]; try congruence; auto.
    + injection F1 as -> ->. exfalso. apply H1. change h with (fst (h, Some (k_id k))). apply in_map. auto.
    + injection K5 as -> ->. exfalso. apply H1. change h with (fst (h, c)). apply in_map. auto.
  - destruct c as [id|]; cbn [unregister p_kids]; [apply NoDup_filter_map|]; apply I.
  - rewrite unregister_open. cbn [p_open]. apply NoDup_filter_map. apply I.
Qed.

Lemma history_ok data l : bytes_ok data -> forall st, pool_ok data st -> good_history data (map fst (p_open st)) l ->
  no_conflict (option_map fst (p_root st)) (map fst (p_open st)) l ->
  exists st' xs, do_accesses data st l = Some (st', xs) /\ Forall2 (right_answer data) l xs.
Proof.
  intros Hd. induction l as [|a l IH]; intros st I G C; [exists st, []; split; auto|].
  assert (STEP : forall f t r, request a = Some (f, t, r) -> good_request data f t r ->
     (forall h, In h (opens a) -> ~ In h (map fst (p_open st))) ->
     (map fst (p_open st) <> [] -> option_map fst (p_root st) = Some r) ->
     good_history data (opens a ++ map fst (p_open st)) l -> no_conflict (Some r) (opens a ++ map fst (p_open st)) l ->
     exists st' xs, do_accesses data st (a :: l) = Some (st', xs) /\ Forall2 (right_answer data) (a :: l) xs).
  { intros f t r Hr Q Hf Hc G' C'.
    destruct (access_ok data st a f t r Hd I Hr Q Hf) as (st1 & x & A1 & A2 & A3 & A4 & A5).
    { intros X. apply Hc. intros Y. apply map_eq_nil in Y. auto. }
    destruct (IH st1 A3) as (st2 & xs & B1 & B2); [rewrite A4; auto|rewrite A4, A5; auto|].
    exists st2, (x :: xs). cbn [do_accesses]. rewrite A1. cbn [obind]. rewrite B1. cbn [obind]. auto. }
  destruct a as [h f t r|h f t r|f t r|h]; cbn [good_history no_conflict] in G, C.
  - destruct G as (G1 & G2 & G3), C as (C1 & C2). apply (STEP f t r); auto. intros h' [<-|[]]. auto.
  - destruct G as (G1 & G2 & G3), C as (C1 & C2). apply (STEP f t r); auto. intros h' [<-|[]]. auto.
  - destruct G as (G1 & G2), C as (C1 & C2). apply (STEP f t r); auto.
  - destruct G as (G1 & G2). destruct (close_ok data st h I G1) as (st1 & A1 & A2 & A3 & A4).
    destruct (IH st1 A2) as (st2 & xs & B1 & B2); [rewrite A3; auto|rewrite A3, A4; auto|].
    exists st2, (RDone :: xs). cbn [do_accesses]. rewrite A1. cbn [obind]. rewrite B1. cbn [obind].
    split; auto. constructor; auto. reflexivity.
Qed.

Lemma restr_dec (a b : option restr) : a = b \/ a <> b.
Proof.
  destruct a as [a|], b as [b|]; try (right; discriminate); auto.
  destruct (restr_eq a b) eqn:E; [apply restr_eq_true in E; subst; auto|].
  right. intros X. injection X as ->. assert (restr_eq b b = true) by (apply restr_eq_true; auto). congruence.
Qed.
Lemma history_conflict data l : bytes_ok data -> forall st res, pool_ok data st -> good_history data (map fst (p_open st)) l ->
  do_accesses data st l = Some res -> no_conflict (option_map fst (p_root st)) (map fst (p_open st)) l.
Proof.
  intros Hd. induction l as [|a l IH]; intros st res I G E; [exact Logic.I|].
  cbn [do_accesses] in E. destruct (do_access data st a) as [[st1 x]|] eqn:EA; [|discriminate]. cbn [obind] in E.
  destruct (do_accesses data st1 l) as [[st2 xs]|] eqn:EL; [|discriminate].
  assert (STEP : forall f t r, request a = Some (f, t, r) -> good_request data f t r ->
     (forall h, In h (opens a) -> ~ In h (map fst (p_open st))) ->
     good_history data (opens a ++ map fst (p_open st)) l ->
     (map fst (p_open st) <> [] -> option_map fst (p_root st) = Some r) /\
     no_conflict (Some r) (opens a ++ map fst (p_open st)) l).
  { intros f t r Hr Q Hf G'.
    assert (Hc : p_open st <> [] -> option_map fst (p_root st) = Some r).
    { intros Ho. destruct (restr_dec (option_map fst (p_root st)) (Some r)); auto. exfalso.
      pose proof (foc_conflict data st f t r I Ho H) as F.
      destruct a; cbn [request] in Hr; try discriminate; injection Hr as -> -> ->; cbn [do_access] in EA; rewrite F in EA; discriminate. }
    split; [intros X; apply Hc; intros Y; apply X; rewrite Y; reflexivity|].
    destruct (access_ok data st a f t r Hd I Hr Q Hf Hc) as (st1' & x' & A1 & A2 & A3 & A4 & A5).
    rewrite EA in A1. injection A1 as <- <-. rewrite <- A4, <- A5. apply (IH st1 (st2, xs)); auto. rewrite A4; auto. }
  destruct a as [h f t r|h f t r|f t r|h]; cbn [good_history no_conflict] in *.
  - destruct G as (G1 & G2 & G3). apply (STEP f t r); auto. intros h' [<-|[]]. auto.
  - destruct G as (G1 & G2 & G3). apply (STEP f t r); auto. intros h' [<-|[]]. auto.
  - destruct G as (G1 & G2). apply (STEP f t r); auto.
  - destruct G as (G1 & G2). destruct (close_ok data st h I G1) as (st1' & A1 & A2 & A3 & A4).
    rewrite EA in A1. injection A1 as <- _. rewrite <- A3, <- A4. apply (IH st1 (st2, xs)); auto. rewrite A3; auto.
Qed.
Lemma pool0_ok data : pool_ok data pool0.
Proof.
  split; cbn.
  - auto.
  - discriminate.
  - intros k r v [].
  - constructor.
  - constructor.
Qed.
