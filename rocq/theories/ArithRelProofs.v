(** Proofs about the arithmetic coder: codebook, encoder and decoder in step. *)
From Verif Require Import Base BitIO BitIOProofs IntCodes IntCodesProofs Coders CodersProofs LooseCoders HuffmanProofs SLEProofs Arith ArithProofs.
Local Open Scope N_scope.

Definition lit (v : N) : call := (v, RLit).
Definition other (c : call) : Prop := snd c <> RLit.

Section ASim.
  Context {S1 S2 : Type} (rb1 : S1 -> bool * S1) (rb2 : S2 -> bool * S2) (R : S1 -> S2 -> Prop).
  Hypothesis rb_sim : forall s l, R s l -> fst (rb1 s) = fst (rb2 l) /\ R (snd (rb1 s)) (snd (rb2 l)).
  Notation osim := (osim R).
  Lemma rd_entries_sim n : forall s l, R s l -> psim R (rd_entries rb1 n s) (rd_entries rb2 n l).
  Proof.
    induction n as [|n IH]; intros s l H; cbn [rd_entries]; [split; auto|].
    destruct (rd_int_sim _ _ _ rb_sim 8 s l H) as [H1 H2].
    destruct (rd_int rb1 8 s) as [v1 s1], (rd_int rb2 8 l) as [v2 l1]; cbn in H1, H2; subst.
    destruct (rd_int_sim _ _ _ rb_sim 32 s1 l1 H2) as [H3 H4].
    destruct (rd_int rb1 32 s1) as [w1 s2], (rd_int rb2 32 l1) as [w2 l2]; cbn in H3, H4; subst.
    destruct (IH _ _ H4) as [H5 H6].
    destruct (rd_entries rb1 n s2), (rd_entries rb2 n l2); cbn in H5, H6; subst. split; auto.
  Qed.
  Lemma ac_open_sim s l : R s l -> osim (ac_open rb1 s) (ac_open rb2 l).
  Proof.
    intros H. unfold ac_open.
    destruct (rd_int_sim _ _ _ rb_sim 32 s l H) as [H1 H2].
    destruct (rd_int rb1 32 s) as [v1 s1], (rd_int rb2 32 l) as [v2 l1]; cbn in H1, H2; subst.
    destruct (rd_int_sim _ _ _ rb_sim 8 s1 l1 H2) as [H3 H4].
    destruct (rd_int rb1 8 s1) as [w1 s2], (rd_int rb2 8 l1) as [w2 l2]; cbn in H3, H4; subst.
    destruct (rd_entries_sim (N.to_nat w2) _ _ H4) as [H5 H6].
    destruct (rd_entries rb1 (N.to_nat w2) s2) as [t1 s3], (rd_entries rb2 (N.to_nat w2) l2) as [t2 l3]; cbn in H5, H6; subst.
    destruct t2 as [|p t2]; [exact I|]. destruct (nth_error _ _); cbn [obind]; [split; auto|exact I].
  Qed.
  Lemma ac_next_sim d s l : R s l -> osim (ac_next rb1 d s) (ac_next rb2 d l).
  Proof.
    intros H. unfold ac_next.
    destruct (rd_int_sim _ _ _ rb_sim 64 s l H) as [H1 H2].
    destruct (rd_int rb1 64 s) as [v1 s1], (rd_int rb2 64 l) as [v2 l1]; cbn in H1, H2; subst.
    destruct (v2 =? u64max); [split; auto|]. destruct (ac_decode d v2); cbn [obind]; [split; auto|exact I].
  Qed.
  Lemma ac_dec_sim r d s l : R s l -> osim (ac_dec rb1 r d s) (ac_dec rb2 r d l).
  Proof.
    intros H. destruct r; cbn [ac_dec];
      try (apply obind_sim; [apply (dec_call_sim _ _ _ rb_sim); auto|intros; split; auto]).
    unfold ac_dec_lit. apply obind_sim.
    - destruct (ad_buf d); [apply ac_next_sim; auto|split; auto].
    - intros d1 s1 l1 H1. destruct (nth_error (ad_buf d1 ++ [0]) (ad_read d1)); cbn [obind]; [|exact I].
      apply obind_sim; [|intros; split; auto].
      cbn [ad_buf]. destruct (_ =? _)%nat; [apply ac_next_sim; auto|split; auto].
  Qed.
End ASim.

Lemma rd_u64 v rest : v <= u64max -> rd_int lrb 64 (write_int v 64 ++ rest) = (v, rest).
Proof. intros H. apply rd_small; [lia|]. change (2 ^ N.of_nat 64) with (2 ^ 64). upow. lia. Qed.
Lemma rd_u32 v rest : v < 4294967296 -> rd_int lrb 32 (write_int v 32 ++ rest) = (v, rest).
Proof. intros H. apply rd_small; [lia|]. exact H. Qed.
Lemma rd_u8 v rest : v < 256 -> rd_int lrb 8 (write_int v 8 ++ rest) = (v, rest).
Proof. intros H. apply rd_small; [lia|]. exact H. Qed.
Lemma rd_entries_ok tb : Forall (fun p => fst p < 256 /\ snd p < 2147483648) tb -> forall rest,
  rd_entries lrb (length tb) (flat_map entry_bits tb ++ rest) = (tb, rest).
Proof.
  induction 1 as [|[c v] tb [Hc Hv] Hp IH]; intros rest; cbn [length rd_entries flat_map]; [reflexivity|].
  cbn [fst snd] in *. unfold entry_bits at 1. cbn [fst snd]. rewrite <- !app_assoc.
  rewrite rd_u8 by auto. rewrite rd_u32 by lia. rewrite IH.
  unfold sext32. change (2 ^ 31) with 2147483648. destruct (N.ltb_spec v 2147483648); [reflexivity|lia].
Qed.
Lemma other_calls_enc cs : Forall call_loose cs -> exists bs, enc_calls BitC cs = Some bs.
Proof. apply enc_calls_loose. Qed.

Section Rel.
  Context (g : nat -> N) (T n : N).
  Hypothesis g0 : g 0%nat = 0.
  Hypothesis gmono : forall i j, (i <= j)%nat -> g i <= g j.
  Hypothesis g255 : g 255%nat = T.
  Hypothesis g256 : g 256%nat = T.
  Hypothesis HT : 1 <= T < 2147483648.
  Hypothesis Hn : n < 4294967296.
  Notation C := (C g).
  Notation tab := (tab g).
  Notation pres := (pres g).
  Hypothesis Hcb : N.of_nat (length tab) < 256.
  Definition enc0 : aenc := mk_aenc C (N.of_nat (length tab)) n T.
  Definition dst (buf : list N) (rd : nat) (rest : list N) : adec :=
    mk_adec tab n (n - N.of_nat (length rest)) buf rd T.

  Lemma C_last : last C 0 = T.
  Proof.
    assert (H : nth_error C (length C - 1) = Some (last C 0)).
    { apply last_nth_error. unfold ArithProofs.C. intros E. apply (f_equal (@length N)) in E. rewrite map_length, seq_length in E. discriminate. }
    assert (L : length C = 256%nat) by (unfold ArithProofs.C; rewrite map_length, seq_length; reflexivity).
    rewrite L in H. change (256 - 1)%nat with 255%nat in H. rewrite nth_C in H by lia. rewrite g256 in H. congruence.
  Qed.
  Lemma tab_last : tab <> [] /\ nth_error (map snd tab) (length tab - 1) = Some T.
  Proof.
    pose proof (ctab_last C 0 0) as E. fold tab in E. rewrite C_last in E.
    assert (Hne : tab <> []) by (intros En; rewrite En in E; cbn in E; lia).
    split; auto. rewrite <- E. rewrite <- (map_length snd) at 1. apply last_nth_error.
    intros Em. apply Hne. destruct tab; [auto|discriminate].
  Qed.
  Lemma tab_bounds : Forall (fun p => fst p < 256 /\ snd p < 2147483648) tab.
  Proof.
    apply Forall_forall. intros p Hp. apply ctab_fst in Hp. destruct Hp as [H1 H2]. unfold ArithProofs.C in H1, H2.
    rewrite map_length, seq_length in H1. split; [lia|].
    apply in_map_iff in H2. destruct H2 as (i & <- & Hi). apply in_seq in Hi.
    assert (g i <= g 256%nat) by (apply gmono; lia). lia.
  Qed.

  Lemma open_ok rest : ac_open lrb (writeCodebook enc0 ++ rest) = Some (mk_adec tab n 0 [] 0 T, rest).
  Proof.
    unfold ac_open, writeCodebook, enc0. cbn [ae_count ae_cb ae_C]. rewrite <- !app_assoc.
    rewrite rd_u32 by auto. rewrite rd_u8 by auto. rewrite entries_ctab. change (ctab 0 0 C) with tab.
    rewrite Nat2N.id. rewrite rd_entries_ok by apply tab_bounds.
    destruct tab_last as [H1 H2]. destruct tab as [|p t] eqn:E; [congruence|]. rewrite H2. reflexivity.
  Qed.

  (** reading the code behind a block *)
  Lemma next_more buf rd rest post : Forall pres rest -> N.of_nat (length rest) <= n ->
    match rest with
    | [] => ac_next lrb (dst buf rd rest) (more g T rest ++ post) = Some (dst buf rd rest, post)
    | _ => exists b rest', rest = b ++ rest' /\ b <> [] /\
        ac_next lrb (dst buf rd rest) (more g T rest ++ post) = Some (dst b 0 rest', more g T rest' ++ post)
    end.
  Proof.
    intros Hp Hl. destruct rest as [|v r].
    - unfold more, ac_next. rewrite rd_u64 by lia. rewrite N.eqb_refl. reflexivity.
    - set (ls := v :: r) in *.
      destruct (fresh g T g0 gmono g255 g256 HT ls) as (b & c & rest' & E1 & E2 & E3 & E4 & E5); auto; [discriminate|].
      exists b, rest'. split; auto. split; auto.
      change (more g T ls) with (litbits g T 0 u64max ls). rewrite E4, <- app_assoc.
      unfold ac_next. rewrite rd_u64 by lia. destruct (N.eqb_spec c u64max); [lia|].
      unfold ac_decode, dst. cbn [ad_tab ad_count ad_cnt ad_min]. rewrite (proj2 tab_last). cbn [obind].
      replace (N.to_nat (n - (n - N.of_nat (length ls)))) with (length ls) by lia. rewrite E5. cbn [obind].
      rewrite E1 in *. rewrite app_length in *. do 3 f_equal. lia.
  Qed.

  (** what the decoder still has to read *)
  Inductive lrel : adec -> list bool -> list call -> Prop :=
  | LBefore pre ls post pb qb : Forall other pre -> Forall other post -> Forall call_loose (pre ++ post) ->
      ls <> [] -> Forall pres ls -> N.of_nat (length ls) = n ->
      enc_calls BitC pre = Some pb -> enc_calls BitC post = Some qb ->
      lrel (dst [] 0 ls) (pb ++ litbits g T 0 u64max ls ++ qb) (pre ++ map lit ls ++ post)
  | LInside buf rd rest post qb : Forall other post -> Forall call_loose post -> (rd < length buf)%nat ->
      Forall pres rest -> N.of_nat (length rest) <= n -> enc_calls BitC post = Some qb ->
      lrel (dst buf rd rest) (more g T rest ++ qb) (map lit (skipn rd buf ++ rest) ++ post)
  | LAfter d post qb : Forall other post -> Forall call_loose post -> enc_calls BitC post = Some qb ->
      lrel d qb post.

  Lemma write_int_ne v k : (0 < k)%nat -> write_int v k <> [].
  Proof. destruct k; [lia|]. discriminate. Qed.
  Lemma more_ne rest : Forall pres rest -> more g T rest <> [].
  Proof.
    intros Hp. destruct rest as [|v r]; [apply write_int_ne; lia|].
    destruct (fresh g T g0 gmono g255 g256 HT (v :: r)) as (b & c & rest' & _ & _ & _ & E4 & _); auto; [discriminate|].
    change (more g T (v :: r)) with (litbits g T 0 u64max (v :: r)). rewrite E4.
    pose proof (write_int_ne c 64). destruct (write_int c 64); [intros _; apply H; auto; lia|discriminate].
  Qed.

  Lemma inside_step buf rd rest post qb : Forall other post -> Forall call_loose post -> (rd < length buf)%nat ->
    Forall pres rest -> N.of_nat (length rest) <= n -> enc_calls BitC post = Some qb ->
    exists v all d' bits', map lit (skipn rd buf ++ rest) ++ post = lit v :: all /\
      ac_dec_lit lrb (dst buf rd rest) (more g T rest ++ qb) = Some (v, d', bits') /\ lrel d' bits' all.
  Proof.
    intros Ho Hl Hr Hp Hn' Eq. rewrite (skipn_cons_nth buf rd 0) by auto. cbn [app map].
    exists (nth rd buf 0), (map lit (skipn (S rd) buf ++ rest) ++ post).
    unfold ac_dec_lit. cbn [dst ad_buf ad_read ad_tab ad_count ad_cnt ad_min].
    destruct buf as [|x buf]; [cbn in Hr; lia|]. cbn [obind]. set (bf := x :: buf) in *.
    cbn [dst ad_buf ad_read ad_tab ad_count ad_cnt ad_min].
    rewrite nth_error_app1 by auto. rewrite (nth_error_nth' bf 0) by auto. cbn [obind].
    fold (dst bf (S rd) rest).
    destruct (Nat.eqb_spec (S rd) (length bf)) as [El|El].
    - rewrite (skipn_all2 bf) by lia. cbn [app].
      pose proof (next_more bf (S rd) rest qb Hp Hn') as G. destruct rest as [|w r].
      + rewrite G. cbn [obind]. eexists _, _. split; [reflexivity|]. split; [reflexivity|].
        cbn [map app]. apply LAfter; auto.
      + destruct G as (b & rest' & Er & Hb & ->). cbn [obind]. eexists _, _. split; [reflexivity|]. split; [reflexivity|].
        rewrite Er in *. rewrite app_length in Hn'. apply Forall_app in Hp. destruct Hp as [_ Hp].
        change (b ++ rest') with (skipn 0 b ++ rest'). apply LInside; auto; [|lia].
        destruct b; [congruence|cbn; lia].
    - cbn [obind]. eexists _, _. split; [reflexivity|]. split; [reflexivity|]. apply LInside; auto; lia.
  Qed.

  Lemma other_step c all bits : other c -> call_loose c -> Forall call_loose all ->
    enc_calls BitC (c :: all) = Some bits -> exists b bs dv, bits = b ++ bs /\ b <> [] /\ enc_calls BitC all = Some bs /\
      (simple_ex BitC c -> dv = fst c) /\
      forall d rest, ac_dec lrb (snd c) d (b ++ rest) = Some (dv, d, rest).
  Proof.
    intros Ho Hl Hla E. destruct c as [v r]. destruct (enc_dec_loose BitC v r Hl) as (b & Eb & Hne & dv & Hex & Hdec).
    cbn [enc_calls] in E. rewrite Eb in E. destruct (enc_calls BitC all) as [bs|]; [|discriminate].
    apply Some_inj in E. subst bits. exists b, bs, dv. split; auto. split; auto. split; auto. split; auto.
    intros d rest. unfold other in Ho. cbn [snd] in *.
    destruct r; [|congruence|]; cbn [ac_dec]; rewrite Hdec; reflexivity.
  Qed.

  Lemma lrel_step d bits v r all : lrel d bits ((v, r) :: all) -> bits <> [] /\
    exists dv d' bits', ac_dec lrb r d bits = Some (dv, d', bits') /\ (simple_ex BitC (v, r) -> dv = v) /\ lrel d' bits' all.
  Proof.
    intros H. inversion H as [pre ls post pb qb H1 H2 H3 H4 H5 H6 H7 H8 E1 E2 E3|
                              buf rd rest post qb H1 H2 H3 H4 H5 H6 E1 E2 E3|d0 post qb H1 H2 H3 E1 E2 E3]; subst d bits.
    - destruct pre as [|c pre].
      + cbn in H7. apply Some_inj in H7. subst pb. cbn [app] in *.
        destruct ls as [|w ls']; [congruence|]. set (ls := w :: ls') in *.
        split.
        { intros E. apply app_eq_nil in E. destruct E as [E _]. apply (more_ne ls H5). exact E. }
        cbn [map app lit] in E3. unfold ls in E3. cbn [map app] in E3. injection E3 as -> <- <-.
        pose proof (next_more [] 0 ls qb H5 ltac:(lia)) as G. unfold ls in G at 1.
        destruct G as (b & rest' & Er & Hb & G). change (more g T ls) with (litbits g T 0 u64max ls) in G.
        assert (Hlen : N.of_nat (length rest') <= n) by (rewrite <- H6, Er, app_length; lia).
        assert (Hp' : Forall pres rest') by (rewrite Er in H5; apply Forall_app in H5; tauto).
        destruct (inside_step b 0 rest' post qb) as (v' & all' & d' & bits' & Ea & Ed & Hr); auto.
        { destruct b; [congruence|cbn; lia]. }
        cbn [skipn] in Ea. rewrite <- Er in Ea. unfold ls in Ea. cbn [map app] in Ea. injection Ea as Ev <-. subst v'.
        exists v, d', bits'. cbn [ac_dec]. split; [|split; auto].
        rewrite <- Ed. unfold ac_dec_lit at 1. cbn [dst ad_buf]. rewrite G. cbn [obind].
        unfold ac_dec_lit. cbn [dst ad_buf]. destruct b; [congruence|]. reflexivity.
      + inversion H1 as [|? ? O1 O2]; subst. cbn [app] in *. injection E3 as -> <-.
        inversion H3 as [|? ? L1 L2]; subst.
        assert (L2' : Forall call_loose pre) by (apply Forall_app in L2; tauto).
        destruct (other_step (v, r) pre pb O1 L1 L2' H7) as (b & bs & dv & -> & Hb & Eb & Hex & Hd).
        rewrite <- app_assoc. split; [destruct b; [congruence|discriminate]|].
        exists dv, (dst [] 0 ls), (bs ++ litbits g T 0 u64max ls ++ qb). split; [apply Hd|]. split; auto.
        apply LBefore; auto.
    - split.
      { intros E. apply app_eq_nil in E. destruct E as [E _]. apply (more_ne rest H4). exact E. }
      destruct (inside_step buf rd rest post qb) as (v' & all' & d' & bits' & Ea & Ed & Hr); auto.
      rewrite E3 in Ea. injection Ea as -> -> ->. exists v', d', bits'. cbn [ac_dec]. auto.
    - subst post. inversion H1 as [|? ? O1 O2]; subst. inversion H2 as [|? ? L1 L2]; subst.
      destruct (other_step (v, r) all qb O1 L1 L2 H3) as (b & bs & dv & -> & Hb & Eb & Hex & Hd).
      split; [destruct b; [congruence|discriminate]|].
      exists dv, d0, bs. split; [apply Hd|]. split; auto. apply LAfter; auto.
  Qed.
  Lemma lrel_end d bits : lrel d bits [] -> bits = [].
  Proof.
    intros H. inversion H as [pre ls post pb qb H1 H2 H3 H4 H5 H6 H7 H8 E1 E2 E3|
                              buf rd rest post qb H1 H2 H3 H4 H5 H6 E1 E2 E3|d0 post qb H1 H2 H3 E1 E2 E3].
    - apply app_eq_nil in E3. destruct E3 as [_ E3]. apply app_eq_nil in E3. destruct ls; [congruence|].
      destruct E3; discriminate.
    - apply app_eq_nil in E3. destruct E3 as [E3 _]. rewrite (skipn_cons_nth buf rd 0) in E3 by auto. discriminate.
    - subst. cbn in H3. apply Some_inj in H3. auto.
  Qed.

  (** ** the encoder *)
  Lemma enc_others cs b : Forall other cs -> forall bs cs', enc_calls BitC cs = Some bs ->
    ac_enc_calls enc0 b (cs ++ cs') = do r <- ac_enc_calls enc0 b cs'; Some (bs ++ r).
  Proof.
    induction 1 as [|[v r] cs Ho Hf IH]; intros bs cs' E.
    - cbn in E. apply Some_inj in E. subst. cbn [app]. destruct (ac_enc_calls enc0 b cs'); reflexivity.
    - cbn [enc_calls] in E. destruct (enc_call BitC (v, r)) as [b1|] eqn:E1; [|discriminate].
      destruct (enc_calls BitC cs) as [b2|]; [|discriminate]. apply Some_inj in E. subst bs.
      cbn [app ac_enc_calls].
      assert (Ec : ac_enc_call enc0 b (v, r) = Some (b1, b)).
      { unfold other in Ho. cbn [snd] in Ho. destruct r; [|congruence|]; cbn [ac_enc_call]; rewrite E1; reflexivity. }
      rewrite Ec. cbn [obind]. rewrite (IH b2 cs') by auto. destruct (ac_enc_calls enc0 b cs'); cbn [obind]; [|reflexivity].
      rewrite <- app_assoc. reflexivity.
  Qed.
  Lemma enc_lits ls : forall lo up cnt, Forall pres ls -> lo < up -> up <= u64max -> cnt + N.of_nat (length ls) = n -> forall qb post,
    Forall other post -> enc_calls BitC post = Some qb ->
    ac_enc_calls enc0 (mk_abnd lo up cnt) (map lit ls ++ post) = Some (litbits g T lo up ls ++ qb).
  Proof.
    induction ls as [|v r IH]; intros lo up cnt Hp Hlu Hu Hc qb post Ho Eq.
    - cbn [map app litbits]. rewrite <- (app_nil_r post). rewrite (enc_others post _ Ho qb []) by auto. cbn [ac_enc_calls obind].
      rewrite app_nil_r. reflexivity.
    - inversion Hp as [|? ? P1 P2]; subst. cbn [map app ac_enc_calls lit ac_enc_call litbits].
      rewrite (set_bounds g T g0 gmono g255 g256 HT) by (auto; lia). cbn [obind ab_cnt].
      cbn [length] in *.
      assert (Ew : w32 (cnt + 1) = cnt + 1).
      { unfold w32. apply N.mod_small. change (2 ^ 32) with 4294967296. lia. }
      rewrite Ew. cbn [enc0 ae_count].
      assert (Elast : (if cnt + 1 =? n then true else false) = match r with [] => true | _ => false end).
      { destruct r; cbn [length] in *; destruct (N.eqb_spec (cnt + 1) n); auto; lia. }
      assert (G : forall lo' up', lo' <= up' <= u64max -> T <= up' - lo' -> forall out,
        (do (o, b) <- Some (out ++ (if cnt + 1 =? n then write_int (slo g T lo' up' v) 64 ++ write_int u64max 64 else []),
                            mk_abnd (slo g T lo' up' v) (sup g T lo' up' v) (cnt + 1));
         do r0 <- ac_enc_calls enc0 b (map lit r ++ post); Some (o ++ r0))
        = Some ((out ++ (match r with [] => write_int (slo g T lo' up' v) 64 ++ write_int u64max 64 | _ => [] end) ++
                 litbits g T (slo g T lo' up' v) (sup g T lo' up' v) r) ++ qb)).
      { intros lo' up' Hlu' Ht out. destruct (step_bounds g T g0 gmono g255 g256 HT lo' up' v) as (B1 & B2 & B3); auto.
        cbn [obind]. rewrite (IH _ _ (cnt + 1) P2 B2) with (qb := qb); auto; [|lia|lia]. cbn [obind].
        destruct (cnt + 1 =? n); destruct r; cbn in Elast; try discriminate; rewrite <- ?app_assoc; reflexivity. }
      destruct (N.ltb_spec (up - lo) T) as [Hr|Hr].
      + apply G; upow; lia.
      + apply G; auto; lia.
  Qed.

  Theorem rel_init pre ls post : Forall other pre -> Forall other post -> Forall call_loose (pre ++ post) ->
    ls <> [] -> Forall pres ls -> N.of_nat (length ls) = n ->
    exists bs, ac_enc_calls enc0 (mk_abnd 0 u64max 0) (pre ++ map lit ls ++ post) = Some bs /\
      ac_open lrb (writeCodebook enc0 ++ bs) = Some (dst [] 0 ls, bs) /\ lrel (dst [] 0 ls) bs (pre ++ map lit ls ++ post).
  Proof.
    intros H1 H2 H3 H4 H5 H6. assert (H3' := H3). apply Forall_app in H3'. destruct H3' as [L1 L2].
    destruct (enc_calls_loose BitC pre L1) as (pb & Ep). destruct (enc_calls_loose BitC post L2) as (qb & Eq).
    exists (pb ++ litbits g T 0 u64max ls ++ qb). split; [|split].
    - rewrite (enc_others pre _ H1 pb) by auto. rewrite (enc_lits ls) with (qb := qb); auto; upow; lia.
    - rewrite open_ok. unfold dst. rewrite H6. rewrite N.sub_diag. reflexivity.
    - apply LBefore; auto.
  Qed.
End Rel.
