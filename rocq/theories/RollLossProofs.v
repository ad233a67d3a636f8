(** LZ78 with a rolling-hash trie: whenever two different strings have the same
    fingerprint, some text is not restored; and LZW when they are distinct. *)
From Verif Require Import Base BitIO IntCodes Coders CodersProofs LZ LZProofs Tries RollTrie RollSpec RollProofs.
From Coq Require FinFun.
Local Open Scope N_scope.

Section Loss.
  Variable r : roller.
  Let K (w : list N) : N := fingerprint r (0 :: w).
  Let S (w : list N) : rl_st r := fold_left (rl_add r) (0 :: w) (rl_clear r).

  Lemma Kl_step w c : rl_key r (rl_add r (S w) c) = K (w ++ [c]).
  Proof. exact (K_step r w c). Qed.
  Lemma Sl_snoc w c : rl_add r (S w) c = S (w ++ [c]).
  Proof. exact (S_snoc r w c). Qed.

  Lemma good_prefix D E j d c : good D E -> nth_error D j = Some (d ++ [c]) ->
    exists p, nth_error D p = Some d /\ (p < j)%nat.
  Proof.
    intros [HS H0] Hj.
    assert (Hjl : (j < length D)%nat) by (apply nth_error_Some; congruence).
    rewrite (sp_len _ _ _ HS) in Hjl. destruct j as [|j].
    { rewrite H0 in Hj. apply Some_inj in Hj. destruct d; discriminate. }
    destruct (nth_error E j) as [[p c']|] eqn:EE.
    2:{ apply nth_error_None in EE. lia. }
    destruct (sp_ent _ _ _ HS _ _ _ EE) as (Hp & w & A & B). cbn [plus] in B. rewrite Hj in B.
    apply Some_inj, app1_inj in B. destruct B as [-> ->]. exists (N.to_nat p). split; [auto | lia].
  Qed.

  Lemma good_len D E : good D E -> forall d j, nth_error D j = Some d -> (length d <= j)%nat.
  Proof.
    intros HG d. induction d as [|c d IH] using rev_ind; intros j Hj; [simpl; lia|].
    destruct (good_prefix _ _ _ _ _ HG Hj) as (p & A & B). apply IH in A.
    rewrite app_length. simpl. lia.
  Qed.

  (** The textbook parser walks along a dictionary string. *)
  Lemma ideal_walk D E : good D E -> forall d j fc lastc, nth_error D j = Some d ->
    exists parent' lastc', forall rest,
      lz78_loop spec_trie 0 (mk_atrie 1 E) 0 0 fc lastc (d ++ rest) =
      lz78_loop spec_trie 0 (mk_atrie 1 E) (N.of_nat j) parent' fc lastc' rest.
  Proof.
    intros HG d. pose proof (sp_nodup _ _ _ (proj1 HG)) as Hnd.
    induction d as [|c d IH] using rev_ind; intros j fc lastc Hj.
    - assert (j = 0%nat) by (eapply nth_error_inj; eauto; apply (proj2 HG)). subst j.
      exists 0, lastc. intros rest. reflexivity.
    - destruct (good_prefix _ _ _ _ _ HG Hj) as (p & A & B).
      destruct (IH p fc lastc A) as (parent' & lastc' & HI).
      exists (N.of_nat p), c. intros rest. rewrite <- app_assoc. rewrite HI. cbn [app lz78_loop].
      cbn [spec_trie t_find].
      assert (A' : nth_error D (N.to_nat (N.of_nat p)) = Some d) by (rewrite Nat2N.id; exact A).
      destruct (spells_find 1 D E (N.of_nat p) d c (proj1 HG) A') as [F _].
      destruct F as (j' & Hj' & _ & Hat); [eapply nth_error_In; eauto|].
      change (N.of_nat 1) with 1 in Hat. rewrite Hat.
      assert (j' = j) by (eapply nth_error_inj; eauto). subst j'. reflexivity.
  Qed.

  Lemma rlz78_loss : forall text D E w node parent fc lastc,
    good D E -> nth_error D (N.to_nat node) = Some w -> NoDup (map K D) ->
    ~ NoDup (map K (fst (lz78_run D w text))) ->
    N.of_nat (length D + length text) < 2 ^ 32 ->
    bytes_ok text -> Forall bytes_ok D ->
    exists text1 text2, bytes_ok text1 /\ bytes_ok text2 /\
      (length text1 <= length text + 1)%nat /\
      (length text2 <= length w + length text + length D + length text + 1)%nat /\
      text2 <> w ++ text1 /\
      forall lc,
      Some (rlz78_loop r 0 (S w, idmap (map K D)) node parent fc lastc text1) =
      lz78_loop spec_trie 0 (mk_atrie 1 E) 0 0 fc lc text2.
  Proof.
    induction text as [|c text IH]; intros D E w node parent fc lastc HG Hw HN Hnot Hl Hb HD.
    - cbn [lz78_run fst] in Hnot. tauto.
    - cbn [lz78_run] in Hnot. cbn [length] in Hl. inversion Hb as [|? ? Hc Hb']; subst.
      pose proof (spells_find 1 D E node w c (proj1 HG) Hw) as [F1 F2].
      change (N.of_nat 1) with 1 in F1, F2.
      assert (Hwb : bytes_ok w).
      { rewrite Forall_forall in HD. apply HD. eapply nth_error_In; eauto. }
      destruct (in_dec str_dec (w ++ [c]) D) as [Hi|Hi].
      + destruct (F1 Hi) as (j & Hj & HRj & Hat).
        assert (Hj' : nth_error D (N.to_nat (N.of_nat j)) = Some (w ++ [c])) by (rewrite Nat2N.id; exact Hj).
        destruct (IH D E (w ++ [c]) (N.of_nat j) node fc c HG Hj' HN Hnot) as (t1 & t2 & B1 & B2 & L1 & L2 & Hne & HE);
          auto; try lia.
        exists (c :: t1), t2. repeat split; auto.
        * constructor; auto.
        * cbn [length]. lia.
        * rewrite app_length in L2. cbn [length] in *. lia.
        * intros X. apply Hne. rewrite X, <- app_assoc. reflexivity.
        * intros lc. cbn [rlz78_loop].
          rewrite (rt_find_known r K _ _ D w c j eq_refl (Kl_step w c) Hj HN). cbv iota beta.
          rewrite Sl_snoc. apply HE.
      + destruct (in_dec N.eq_dec (K (w ++ [c])) (map K D)) as [Hk|Hk].
        * destruct (rt_find_coll r K (S w) _ D w c eq_refl (Kl_step w c) Hk) as (j & d & Hd & HKd & Hfind).
          assert (Hdne : d <> w ++ [c]).
          { intros ->. apply Hi. eapply nth_error_In; eauto. }
          assert (Hdb : bytes_ok d).
          { rewrite Forall_forall in HD. apply HD. eapply nth_error_In; eauto. }
          assert (Hjl : (j < length D)%nat) by (apply nth_error_Some; congruence).
          pose proof (good_len D E HG d j Hd) as Hdl.
          assert (Hbc : bytes_ok [c; 97]).
          { constructor; auto. constructor; [unfold byte_ok; lia|constructor]. }
          (* what the rolling trie does on [c; 97] *)
          assert (R2 : exists n2 isnew2 st2, rt_find r (rl_add r (S w) c, idmap (map K D)) 97 = (n2, isnew2, st2) /\
                     (isnew2 = true -> snd st2 <> [])).
          { unfold rt_find, hm_insert. cbn [fst snd].
            destruct (hm_get _ _); eexists _, _, _; split; try reflexivity; intros X; try discriminate.
            cbn [snd]. intros Y. apply app_eq_nil in Y. destruct Y. discriminate. }
          destruct R2 as (n2 & isnew2 & st2 & R2 & R2s).
          destruct (Bool.bool_dec (negb isnew2 && (n2 =? 0)) true) as [Hz|Hz].
          { (* nothing is written *)
            exists [c; 97], []. repeat split; auto; try (cbn [length]; lia); try constructor.
            - intros X. destruct w; discriminate.
            - intros lc. cbn [rlz78_loop]. rewrite Hfind. cbv iota beta. rewrite R2. cbv iota beta.
              destruct isnew2; cbn [negb andb] in Hz; [discriminate|]. cbn [lz78_loop].
              rewrite Hz. reflexivity. }
          exists [c; 97], (d ++ [97]). repeat split; auto.
          -- unfold bytes_ok. apply Forall_app. split; auto. constructor; [unfold byte_ok; lia|constructor].
          -- cbn [length]. lia.
          -- rewrite app_length. cbn [length]. lia.
          -- intros X. replace (w ++ [c; 97]) with ((w ++ [c]) ++ [97]) in X by (rewrite <- app_assoc; reflexivity).
             apply app1_inj in X. destruct X as [X _]. auto.
          -- intros lc.
             destruct (ideal_walk D E HG d j fc lc Hd) as (parent' & lastc' & HI). rewrite HI.
             assert (Hd' : nth_error D (N.to_nat (N.of_nat j)) = Some d) by (rewrite Nat2N.id; exact Hd).
             destruct (spells_find 1 D E (N.of_nat j) d 97 (proj1 HG) Hd') as [G1 G2].
             change (N.of_nat 1) with 1 in G1, G2.
             assert (HR : rlz78_loop r 0 (S w, idmap (map K D)) node parent fc lastc [c; 97]
                          = [(N.of_nat j, RInt 0 fc); (97, RLit)]).
             { cbn [rlz78_loop]. rewrite Hfind. cbv iota beta. rewrite R2. cbv iota beta.
               destruct isnew2.
               - unfold rt_get_root. cbv iota beta. rewrite N.eqb_refl.
                 destruct (rt_size r (rl_add r (fst st2) 0, snd st2) =? 0); reflexivity.
               - cbn [negb andb] in Hz. destruct (n2 =? 0); [tauto|]. reflexivity. }
             rewrite HR. cbn [lz78_loop]. cbn [spec_trie t_find t_root t_size].
             destruct (in_dec str_dec (d ++ [97]) D) as [Hx|Hx].
             ++ destruct (G1 Hx) as (j2 & Hj2 & HR2 & Hat2). rewrite Hat2.
                replace (N.of_nat j2 =? 0) with false by lia. reflexivity.
             ++ rewrite (G2 Hx). unfold at_size. cbn [a_roots a_ent].
                replace (1 + N.of_nat (length (E ++ [(N.of_nat j, 97)])) =? 0) with false by lia.
                reflexivity.
        * assert (HN' : NoDup (map K (D ++ [w ++ [c]]))).
          { rewrite map_app. cbn [map]. apply NoDup_snoc; auto. }
          assert (H00 : nth_error (D ++ [w ++ [c]]) (N.to_nat 0) = Some []).
          { change (N.to_nat 0) with 0%nat. pose proof (proj2 HG) as H00.
            rewrite nth_error_app1; [exact H00|]. apply nth_error_Some. rewrite H00. discriminate. }
          destruct (IH (D ++ [w ++ [c]]) (E ++ [(node, c)]) [] 0 0 (fc + 1) c
                      (good_snoc r _ _ _ _ _ HG Hw Hi) H00 HN' Hnot) as (t1 & t2 & B1 & B2 & L1 & L2 & Hne & HE); auto.
          { rewrite app_length. cbn [length]. lia. }
          { apply Forall_app. split; auto. constructor; [|constructor].
            apply Forall_app. split; auto. }
          exists (c :: t1), (w ++ c :: t2). repeat split; auto.
          -- constructor; auto.
          -- apply Forall_app. split; [auto | constructor; auto].
          -- cbn [length]. lia.
          -- rewrite app_length in *. cbn [length] in *. lia.
          -- intros X. apply app_inv_head in X. inversion X; subst. apply Hne. reflexivity.
          -- intros lc.
             destruct (ideal_walk D E HG w (N.to_nat node) fc lc Hw) as (parent' & lastc' & HI).
             rewrite HI. rewrite N2Nat.id. cbn [rlz78_loop lz78_loop].
             cbn [spec_trie t_find t_root t_size].
             rewrite (F2 Hi). rewrite (rt_find_new r K _ _ D w c eq_refl (Kl_step w c) Hk) by lia.
             cbv iota beta. unfold rt_get_root. cbn [fst snd].
             unfold rt_size, at_size. cbn [snd a_roots a_ent]. rewrite idmap_length, map_length.
             rewrite app_length. cbn [length].
             replace (N.of_nat (length D + 1) =? 0) with false by lia.
             replace (1 + N.of_nat (length (E ++ [(node, c)])) =? 0) with false by lia.
             rewrite <- (HE c). reflexivity.
  Qed.

  (** *** A text that brings a given string into the dictionary *)
  Definition pclosed (D : list (list N)) : Prop :=
    In [] D /\ forall p c, In (p ++ [c]) D -> In p D.

  Lemma lz78_run_app D w t1 t2 : lz78_run D w (t1 ++ t2) =
    lz78_run (fst (lz78_run D w t1)) (snd (lz78_run D w t1)) t2.
  Proof.
    revert D w. induction t1 as [|c t1 IH]; intros D w; [reflexivity|].
    cbn [app lz78_run]. destruct (in_dec str_dec (w ++ [c]) D); apply IH.
  Qed.

  Lemma run_walk D : pclosed D -> forall s, In s D -> lz78_run D [] s = (D, s).
  Proof.
    intros [H0 Hp] s. induction s as [|c s IH] using rev_ind; intros Hs; [reflexivity|].
    rewrite lz78_run_app, IH by (eapply Hp; eauto). cbn [fst snd lz78_run].
    destruct (in_dec str_dec (s ++ [c]) D); [reflexivity|tauto].
  Qed.

  Lemma reach D s : pclosed D -> bytes_ok s ->
    exists t D', lz78_run D [] t = (D', []) /\ pclosed D' /\ incl D D' /\ In s D' /\ bytes_ok t /\
      (2 * length t <= length s * (length s + 1))%nat.
  Proof.
    intros HD. induction s as [|c s IH] using rev_ind; intros Hb.
    - exists [], D. repeat split; auto; try apply HD; try constructor. intros x; auto.
    - apply Forall_app in Hb. destruct Hb as [Hb Hc].
      destruct (IH Hb) as (t & D' & Hr & Hp & Hin & Hs & Ht & Hl).
      destruct (in_dec str_dec (s ++ [c]) D') as [Hi|Hi].
      + exists t, D'. repeat split; auto; try apply Hp. rewrite app_length. simpl. nia.
      + exists (t ++ s ++ [c]), (D' ++ [s ++ [c]]). repeat split.
        * rewrite lz78_run_app, Hr. cbn [fst snd]. rewrite lz78_run_app, (run_walk _ Hp _ Hs).
          cbn [fst snd lz78_run]. destruct (in_dec str_dec (s ++ [c]) D'); [tauto|reflexivity].
        * apply in_app_iff. left. apply Hp.
        * intros p c' Hx. apply in_app_iff in Hx. apply in_app_iff. left.
          destruct Hx as [Hx|[Hx|[]]]; [eapply (proj2 Hp); eauto|].
          apply app1_inj in Hx. destruct Hx as [<- _]. exact Hs.
        * intros x Hx. apply in_app_iff. auto.
        * apply in_app_iff. right. left. reflexivity.
        * apply Forall_app. split; auto. apply Forall_app. auto.
        * rewrite !app_length. cbn [length]. nia.
  Qed.

  Lemma NoDup_map_inj (l : list (list N)) : NoDup (map K l) -> forall a b, In a l -> In b l -> K a = K b -> a = b.
  Proof.
    induction l as [|x l IH]; cbn [map]; intros H a b Ha Hb E; [destruct Ha|].
    inversion H as [|? ? Hni Hnd]; subst. destruct Ha as [<-|Ha], Hb as [<-|Hb]; auto.
    - exfalso. apply Hni. rewrite E. apply in_map, Hb.
    - exfalso. apply Hni. rewrite <- E. apply in_map, Ha.
  Qed.

  Lemma loss_from_collision s1 s2 : s1 <> s2 -> bytes_ok s1 -> bytes_ok s2 -> K s1 = K s2 ->
    (length s1 <= 9)%nat -> (length s2 <= 9)%nat ->
    exists text other, bytes_ok text /\ bytes_ok other /\ (length text <= 91)%nat /\ (length other <= 182)%nat /\
      other <> text /\ lz78_calls spec_trie 0 other = Some (rlz78_calls r 0 text).
  Proof.
    intros Hne Hb1 Hb2 HK Hl1 Hl2.
    assert (P0 : pclosed [[]]).
    { split; [left; reflexivity|]. intros p c [X|[]]. destruct p; discriminate. }
    destruct (reach [[]] s1 P0 Hb1) as (t1 & D1 & R1 & P1 & I1 & S1 & B1 & L1).
    destruct (reach D1 s2 P1 Hb2) as (t2 & D2 & R2 & P2 & I2 & S2 & B2 & L2).
    assert (ER : lz78_run [[]] [] (t1 ++ t2) = (D2, [])) by (rewrite lz78_run_app, R1; exact R2).
    assert (Hx : ~ NoDup (map K (fst (lz78_run [[]] [] (t1 ++ t2))))).
    { rewrite ER. cbn [fst]. intros Hn. apply Hne. eapply NoDup_map_inj; eauto. }
    assert (Lt1 : (length t1 <= 45)%nat) by nia. assert (Lt2 : (length t2 <= 45)%nat) by nia.
    destruct (rlz78_loss (t1 ++ t2) [[]] [] [] 0 0 0 0) as (text & other & Bt & Bo & Lt & Lo & Hd & HE).
    - apply (good_init r).
    - reflexivity.
    - cbn [map]. constructor; [intros []|constructor].
    - exact Hx.
    - rewrite app_length. cbn [length]. lia.
    - apply Forall_app. auto.
    - constructor; constructor.
    - exists text, other. rewrite app_length in *. cbn [length app] in *.
      repeat split; auto; try lia.
      unfold lz78_calls, rlz78_calls. rewrite rt_init_1. cbv iota beta.
      cbn [spec_trie t_init t_root obind]. symmetry. apply HE.
  Qed.
End Loss.

(** *** Pigeonhole *)
Fixpoint strs (k : nat) : list (list N) :=
  match k with
  | O => [[]]
  | S k => flat_map (fun c => map (cons (N.of_nat c)) (strs k)) (seq 0 256)
  end.

Lemma strs_spec k w : In w (strs k) -> length w = k /\ bytes_ok w.
Proof.
  revert w. induction k as [|k IH]; intros w; cbn [strs].
  - intros [<-|[]]. split; [reflexivity|constructor].
  - rewrite in_flat_map. intros (c & Hc & Hw). apply in_map_iff in Hw.
    destruct Hw as (w' & <- & Hw'). apply IH in Hw'. apply in_seq in Hc. cbn [length].
    destruct Hw' as [-> Hb]. split; [reflexivity|]. constructor; auto. unfold byte_ok. lia.
Qed.

Lemma NoDup_app_intro {A} (a b : list A) : NoDup a -> NoDup b -> (forall x, In x a -> ~ In x b) -> NoDup (a ++ b).
Proof.
  induction a as [|x a IH]; simpl; intros Ha Hb Hd; auto. inversion Ha; subst. constructor.
  - rewrite in_app_iff. intros [H|H]; [tauto|]. apply (Hd x); auto.
  - apply IH; auto.
Qed.

Lemma strs_flat_nodup (l : list (list N)) cs : NoDup l -> NoDup cs ->
  NoDup (flat_map (fun c => map (cons (N.of_nat c)) l) cs).
Proof.
  intros Hl. induction cs as [|c cs IH]; intros Hc; cbn [flat_map]; [constructor|].
  inversion Hc; subst. apply NoDup_app_intro.
  - apply FinFun.Injective_map_NoDup; auto. intros a b E. congruence.
  - auto.
  - intros x Hx. rewrite in_flat_map. intros (c' & Hc' & Hx').
    apply in_map_iff in Hx, Hx'. destruct Hx as (w & <- & _), Hx' as (w' & E & _).
    inversion E. assert (c = c') by lia. subst c'. tauto.
Qed.

Lemma strs_nodup k : NoDup (strs k).
Proof.
  induction k as [|k IH]; cbn [strs].
  - constructor; [intros []|constructor].
  - apply strs_flat_nodup; auto. apply seq_NoDup.
Qed.

Lemma flat_map_const_len {A B} (f : A -> list B) n cs : (forall c, length (f c) = n) ->
  length (flat_map f cs) = (length cs * n)%nat.
Proof. intros H. induction cs; cbn [flat_map length]; [reflexivity|]. rewrite app_length, H, IHcs. lia. Qed.

Lemma strs_length k : N.of_nat (length (strs k)) = 256 ^ N.of_nat k.
Proof.
  induction k as [|k IH]; [reflexivity|]. cbn [strs].
  rewrite (flat_map_const_len _ (length (strs k))) by (intros; apply map_length).
  rewrite seq_length, Nat2N.inj_mul, IH. change (N.of_nat 256) with 256.
  rewrite (Nat2N.inj_succ k), N.pow_succ_r'. reflexivity.
Qed.

Lemma dup_or_nodup (f : list N -> N) l : NoDup l ->
  NoDup (map f l) \/ exists a b, In a l /\ In b l /\ a <> b /\ f a = f b.
Proof.
  induction l as [|x l IH]; intros H; [left; constructor|].
  inversion H as [|? ? Hni Hnd]; subst. destruct (IH Hnd) as [IH1|(a & b & Ha & Hb & Hab & E)].
  2:{ right. exists a, b. simpl. auto. }
  destruct (in_dec N.eq_dec (f x) (map f l)) as [Hi|Hi].
  - right. apply in_map_iff in Hi. destruct Hi as (y & E & Hy). exists x, y. simpl.
    repeat split; auto. intros ->. auto.
  - left. constructor; auto.
Qed.

Lemma pigeon (f : list N -> N) M l : NoDup l -> (forall w, In w l -> f w < M) ->
  M < N.of_nat (length l) -> exists a b, In a l /\ In b l /\ a <> b /\ f a = f b.
Proof.
  intros Hn Hf Hl. destruct (dup_or_nodup f l Hn) as [H|H]; auto. exfalso.
  assert (L : (length (map f l) <= length (map N.of_nat (seq 0 (N.to_nat M))))%nat).
  { apply NoDup_incl_length; auto. intros x Hx. apply in_map_iff in Hx. destruct Hx as (w & <- & Hw).
    apply Hf in Hw. apply in_map_iff. exists (N.to_nat (f w)). split; [lia|]. apply in_seq. lia. }
  rewrite !map_length, seq_length in L. lia.
Qed.

Lemma collision (f : list N -> N) : (forall w, f w < 2 ^ 64) ->
  exists a b, a <> b /\ bytes_ok a /\ bytes_ok b /\ f a = f b /\ length a = 9%nat /\ length b = 9%nat.
Proof.
  intros Hf.
  destruct (pigeon f (2 ^ 64) (strs 9) (strs_nodup 9)) as (a & b & Ha & Hb & Hne & E).
  - intros w _. apply Hf.
  - rewrite strs_length. reflexivity.
  - apply strs_spec in Ha, Hb. exists a, b. tauto.
Qed.

(** *** LZW *)
Section LW.
  Variable r : roller.
  Let K (w : list N) : N := fingerprint r w.
  Let S (w : list N) : rl_st r := fold_left (rl_add r) w (rl_clear r).

  Lemma Sw_snoc w c : rl_add r (S w) c = S (w ++ [c]).
  Proof. unfold S. rewrite fold_left_app. reflexivity. Qed.
  Lemma Kw_step w c : rl_key r (rl_add r (S w) c) = K (w ++ [c]).
  Proof. rewrite Sw_snoc. reflexivity. Qed.

  Definition goodw (D : list (list N)) (E : list (N * N)) : Prop :=
    spells 256 D E /\ (forall c, c < 256 -> nth_error D (N.to_nat c) = Some [c]).

  Lemma goodw_root D E j u : goodw D E -> (j < 256)%nat -> nth_error D j = Some u -> u = [N.of_nat j].
  Proof.
    intros [_ HR] Hj Hu. specialize (HR (N.of_nat j) ltac:(lia)). rewrite Nat2N.id in HR. congruence.
  Qed.

  Lemma goodw_snoc D E node w c : goodw D E -> nth_error D (N.to_nat node) = Some w ->
    ~ In (w ++ [c]) D -> w <> [] -> goodw (D ++ [w ++ [c]]) (E ++ [(node, c)]).
  Proof.
    intros HG Hw Hni Hne. split.
    - apply spells_snoc; auto; [apply HG|]. intros j u Hj Hu. rewrite (goodw_root _ _ _ _ HG Hj Hu).
      rewrite app_length. cbn [length]. lia.
    - intros x Hx. pose proof (proj2 HG x Hx) as H. rewrite nth_error_app1; auto.
      apply nth_error_Some. rewrite H. discriminate.
  Qed.

  Lemma lzw_run_dict D w text : exists D', fst (lzw_run D w text) = D ++ D'.
  Proof.
    revert D w. induction text as [|c text IH]; intros D w; cbn [lzw_run].
    - exists []. cbn [fst]. rewrite app_nil_r. reflexivity.
    - destruct (in_dec str_dec (w ++ [c]) D).
      + apply IH.
      + destruct (IH (D ++ [w ++ [c]]) [c]) as (D' & E). exists ([w ++ [c]] ++ D').
        rewrite E, app_assoc. reflexivity.
  Qed.

  Lemma rlzw_loop_ok : forall text D E w node fc,
    goodw D E -> nth_error D (N.to_nat node) = Some w -> w <> [] -> bytes_ok text ->
    NoDup (map K (fst (lzw_run D w text))) ->
    N.of_nat (length D + length text) < 2 ^ 32 ->
    Some (rlzw_loop r 0 (S w, idmap (map K D)) node fc text) =
    lzw_loop spec_trie 0 (mk_atrie 256 E) node fc text.
  Proof.
    induction text as [|c text IH]; intros D E w node fc HG Hw Hne Hb Hnd Hl.
    - reflexivity.
    - cbn [lzw_run] in Hnd. cbn [rlzw_loop lzw_loop]. cbn [length] in Hl.
      inversion Hb as [|? ? Hc Hb']; subst.
      cbn [spec_trie t_find t_root t_size].
      pose proof (spells_find 256 D E node w c (proj1 HG) Hw) as [F1 F2].
      change (N.of_nat 256) with 256 in F1, F2.
      destruct (in_dec str_dec (w ++ [c]) D) as [Hi|Hi].
      + destruct (F1 Hi) as (j & Hj & HRj & Hat). rewrite Hat.
        assert (HN : NoDup (map K D)).
        { destruct (lzw_run_dict D (w ++ [c]) text) as (D' & E'). rewrite E', map_app in Hnd.
          eapply NoDup_app_l; eauto. }
        rewrite (rt_find_known r K _ _ D w c j eq_refl (Kw_step w c) Hj HN). cbv iota beta.
        rewrite Sw_snoc. apply IH; auto; try lia.
        * rewrite Nat2N.id. exact Hj.
        * intros X. destruct w; discriminate.
      + rewrite (F2 Hi).
        destruct (lzw_run_dict (D ++ [w ++ [c]]) [c] text) as (D' & E').
        assert (HN : ~ In (K (w ++ [c])) (map K D)).
        { rewrite E', !map_app in Hnd. apply NoDup_app_l in Hnd. cbn [map] in Hnd.
          apply NoDup_remove_2 in Hnd. rewrite app_nil_r in Hnd. exact Hnd. }
        rewrite (rt_find_new r K _ _ D w c eq_refl (Kw_step w c) HN) by lia.
        cbv iota beta. unfold rt_get_root. cbn [fst snd].
        change (rl_add r (rl_clear r) c) with (S [c]).
        unfold rt_size, at_size. cbn [snd a_roots a_ent]. rewrite idmap_length, map_length.
        rewrite app_length. cbn [length].
        replace (N.of_nat (length D + 1) =? 0) with false by lia.
        replace (256 + N.of_nat (length (E ++ [(node, c)])) =? 0) with false by lia.
        pose proof (goodw_snoc _ _ _ _ _ HG Hw Hi Hne) as HG'.
        rewrite <- (IH (D ++ [w ++ [c]]) (E ++ [(node, c)]) [c] c (fc + 1)); cbn [obind]; auto.
        * apply (proj2 HG'). exact Hc.
        * discriminate.
        * rewrite app_length. cbn [length]. lia.
  Qed.

  Lemma rt_roots_ok cs done : NoDup (map K (done ++ map (fun c => [c]) cs)) ->
    N.of_nat (length done + length cs) < 2 ^ 32 ->
    fold_left (rt_add_root r) cs (rl_clear r, idmap (map K done)) =
    (rl_clear r, idmap (map K (done ++ map (fun c => [c]) cs))).
  Proof.
    revert done. induction cs as [|c cs IH]; intros done Hn Hl; cbn [fold_left map].
    - rewrite app_nil_r. reflexivity.
    - cbn [map length] in *.
      assert (E : rt_add_root r (rl_clear r, idmap (map K done)) c = (rl_clear r, idmap (map K (done ++ [[c]])))).
      { unfold rt_add_root, hm_insert. cbn [fst snd].
        change (rl_key r (rl_add r (rl_clear r) c)) with (K [c]).
        destruct (hm_get_idmap (map K done) (K [c])) as [(j & Hj & Hn' & _)|[_ Hg]].
        - exfalso. rewrite map_app in Hn. cbn [map] in Hn. apply NoDup_remove_2 in Hn. apply Hn.
          apply in_app_iff. left. eapply nth_error_In; eauto.
        - rewrite Hg. cbn [snd]. rewrite idmap_length, map_length. unfold w32.
          rewrite N.mod_small by lia. rewrite map_app. cbn [map]. rewrite idmap_snoc, map_length. reflexivity. }
      rewrite E, IH.
      + rewrite <- app_assoc. reflexivity.
      + rewrite <- app_assoc. exact Hn.
      + rewrite app_length. cbn [length]. lia.
  Qed.

  Lemma letters_map : letters = map (fun c => [c]) (map N.of_nat (seq 0 256)).
  Proof. unfold letters. rewrite map_map. reflexivity. Qed.

  Lemma rt_init_256 : NoDup (map K letters) -> rt_init r 256 = (rl_clear r, idmap (map K letters)).
  Proof.
    intros Hn. unfold rt_init, rt_roots. change (N.to_nat 256) with 256%nat. rewrite letters_map in *.
    apply (rt_roots_ok (map N.of_nat (seq 0 256)) []); auto.
    rewrite map_length, seq_length. reflexivity.
  Qed.

  Lemma goodw_init : goodw letters [].
  Proof.
    assert (N0 : forall c, c < 256 -> nth_error letters (N.to_nat c) = Some [c]).
    { intros c Hc. unfold letters. rewrite (map_nth_error _ (N.to_nat c) (seq 0 256) (d := N.to_nat c)).
      - rewrite N2Nat.id. reflexivity.
      - rewrite (nth_error_nth' _ 0%nat) by (rewrite seq_length; lia). rewrite seq_nth by lia. reflexivity. }
    split; auto. constructor.
    - unfold letters. rewrite map_length, seq_length. reflexivity.
    - unfold letters. apply FinFun.Injective_map_NoDup; [|apply seq_NoDup].
      intros a b E. inversion E. lia.
    - intros k p c H. destruct k; discriminate.
    - intros j u w c Hj Hu Hin Heq.
      assert (L : forall v, In v letters -> length v = 1%nat).
      { unfold letters. intros v Hv. apply in_map_iff in Hv. destruct Hv as (x & <- & _). reflexivity. }
      apply nth_error_In, L in Hu. apply L in Hin. subst u. rewrite app_length in Hu. simpl in Hu. lia.
    - lia.
  Qed.

  Lemma rlzw_calls_ok text : bytes_ok text -> NoDup (map K (lzw_dict text)) ->
    N.of_nat (length text) + 256 < 2 ^ 32 ->
    lzw_calls spec_trie 0 text = Some (rlzw_calls r 0 text).
  Proof.
    intros Hb Hn Hl. unfold lzw_calls, rlzw_calls. cbn [spec_trie t_init t_root obind].
    destruct text as [|c text]; [reflexivity|]. inversion Hb as [|? ? Hc Hb']; subst.
    cbn [lzw_dict] in Hn.
    assert (Hn0 : NoDup (map K letters)).
    { destruct (lzw_run_dict letters [c] text) as (D' & E). rewrite E, map_app in Hn.
      eapply NoDup_app_l; eauto. }
    rewrite (rt_init_256 Hn0). unfold rt_get_root. cbn [fst snd]. cbv iota beta.
    change (rl_add r (rl_clear r) c) with (S [c]). symmetry.
    apply rlzw_loop_ok; auto using goodw_init.
    - apply goodw_init. exact Hc.
    - discriminate.
    - cbn [length] in Hl. unfold letters. rewrite map_length, seq_length. lia.
  Qed.
End LW.
