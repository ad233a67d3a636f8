(** The codings of the right-hand sides give them back. *)
From Verif Require Import Base BitIO BitIOProofs IntCodes IntCodesProofs Esp EspProofs SlpSort SlpSortProofs SlpCoderProofs DCodings.
Local Open Scope N_scope.

(** ** DPlain *)
Lemma read_plain_ok : forall l w s rest, (w <= 64)%nat -> Forall (fun x => x < 2 ^ N.of_nat w) l ->
  bisR s (plain_bits w l ++ rest) -> exists s', read_plain (length l) w s = (l, s') /\ bisR s' rest.
Proof.
  induction l as [|x l IH]; intros w s rest Hw HF HR.
  - exists s. auto.
  - inversion HF; subst. unfold plain_bits in HR. cbn [map concat] in HR. rewrite <- app_assoc in HR.
    destruct (rint_bis _ _ _ _ HR) as (s1 & E1 & HR1); auto. cbn [length read_plain]. rewrite E1.
    destruct (IH w s1 rest) as (s2 & E2 & HR2); auto. rewrite E2. eauto.
Qed.
Lemma bits_forn_lt x mx : x <= mx -> x < 2 ^ N.of_nat (bits_forn mx).
Proof. intros H. unfold bits_forn. rewrite N2Nat.id. pose proof (bits_for_bound mx). lia. Qed.
Lemma bits_forn_33 mx : mx < 2 ^ 33 -> (1 <= bits_forn mx <= 33)%nat.
Proof. intros H. unfold bits_forn. pose proof (bits_for_pos mx). pose proof (bits_for_min mx 33 ltac:(lia) H). lia. Qed.

Theorem d_plain_ok : dcoding_ok d_plain.
Proof.
  intros rhs mx _ _ Hmx HF. pose proof (bits_forn_33 mx Hmx). exists (plain_bits (bits_forn mx) rhs). split; [reflexivity|].
  intros s fuel HR _. rewrite <- (app_nil_r (plain_bits _ _)) in HR. destruct (read_plain_ok rhs (bits_forn mx) s []) as (s' & E & _); auto; [lia| |].
  - eapply Forall_impl; [|exact HF]. cbn. intros a Ha. apply bits_forn_lt. auto.
  - exists s'. cbn [dc_dec d_plain]. rewrite E. reflexivity.
Qed.

(** ** encode_unary_diff / decode_unary_diff *)
Lemma udiffs_length l : forall a, length (udiffs a l) = length l.
Proof. induction l as [|x l IH]; intros a; cbn [udiffs length]; auto. Qed.
Lemma udiffs_lt k l : forall a, a < 2 ^ k -> Forall (fun x => x < 2 ^ k) l -> Forall (fun x => x < 2 ^ k) (udiffs a l).
Proof.
  induction l as [|x l IH]; intros a Ha HF; cbn [udiffs]; constructor; inversion HF; subst; auto.
  destruct (N.leb_spec a x); lia.
Qed.
Lemma nsum_succ l : nsum (map (fun d => d + 1) l) = N.of_nat (length l) + nsum l.
Proof. induction l as [|x l IH]; cbn [nsum map fold_right length]; [reflexivity|]. unfold nsum in IH. rewrite IH. lia. Qed.
Lemma usigns_length l : forall a, length (usigns a l) = length (filter (fun d => negb (d =? 0)) (udiffs a l)).
Proof.
  induction l as [|x l IH]; intros a; [reflexivity|]. cbn [usigns udiffs filter]. rewrite app_length, IH.
  destruct (N.ltb_spec a x); destruct (N.leb_spec a x); try lia.
  - replace (x - a =? 0) with false by (symmetry; apply N.eqb_neq; lia). reflexivity.
  - destruct (N.ltb_spec x a); try lia. replace (x - a =? 0) with true by (symmetry; apply N.eqb_eq; lia). reflexivity.
  - destruct (N.ltb_spec x a); try lia. replace (a - x =? 0) with false by (symmetry; apply N.eqb_neq; lia). reflexivity.
Qed.
Lemma uchanges_le l : uchanges l <= N.of_nat (length l).
Proof.
  unfold uchanges. rewrite <- (udiffs_length l 0). generalize (udiffs 0 l) as d.
  induction d as [|x d IH]; cbn [filter length]; [lia|]. destruct (negb (x =? 0)); cbn [length]; lia.
Qed.
Lemma uchanges_zero l : uchanges l = 0 <-> Forall (fun x => x = 0) l.
Proof.
  unfold uchanges. split.
  - induction l as [|x l IH]; intros H; constructor.
    + cbn [udiffs] in H. cbn [filter] in H. destruct (N.leb_spec 0 x); [|lia].
      destruct (N.eqb_spec (x - 0) 0); [lia|]. cbn [negb length] in H. lia.
    + apply IH. cbn [udiffs filter] in H. destruct (N.leb_spec 0 x); [|lia].
      destruct (N.eqb_spec (x - 0) 0); cbn [negb length] in H; [|lia]. replace x with 0 in H by lia. exact H.
  - induction 1 as [|x l Hx HF IH]; [reflexivity|]. subst x. cbn [udiffs filter]. exact IH.
Qed.

Lemma read_unaries_ok : forall l fuel vw s rest, vw <= 64 -> Forall (fun x => x < 2 ^ vw) l ->
  bisR s (concat (map write_unary l) ++ rest) -> (length (concat (map write_unary l)) < fuel)%nat ->
  exists s', read_unaries fuel (length l) vw s = Some (l, s') /\ bisR s' rest.
Proof.
  induction l as [|x l IH]; intros fuel vw s rest Hvw HF HR Hf.
  - exists s. auto.
  - inversion HF as [|? ? Hx HF']; subst. cbn [map concat] in *. rewrite app_length, write_unary_length in Hf. rewrite <- app_assoc in HR.
    assert (Hp : 2 ^ vw <= 2 ^ 64) by (apply N.pow_le_mono_r; lia).
    destruct (runary_bis _ _ _ fuel HR) as (s1 & E1 & HR1); [lia|lia|]. cbn [length read_unaries]. rewrite E1. cbn [obind].
    destruct (IH fuel vw s1 rest) as (s2 & E2 & HR2); auto; [lia|]. rewrite E2. cbn [obind].
    unfold trunc. rewrite N.mod_small by auto. eauto.
Qed.
Lemma add_diffs_sign : forall l a vw s rest, vw <= 64 -> a < 2 ^ vw -> Forall (fun x => x < 2 ^ vw) l ->
  bisR s (usigns a l ++ rest) -> exists s', add_diffs true vw a (udiffs a l) s = (l, s') /\ bisR s' rest.
Proof.
  induction l as [|x l IH]; intros a vw s rest Hvw Ha HF HR.
  - exists s. auto.
  - inversion HF as [|? ? Hx HF']; subst. cbn [usigns] in HR. rewrite <- app_assoc in HR. cbn [udiffs add_diffs].
    assert (Hp : 2 ^ vw <= 2 ^ 64) by (apply N.pow_le_mono_r; lia).
    assert (G : exists s1, (if (if a <=? x then x - a else a - x) =? 0 then (a, s)
                            else let '(b, s0) := bis_read_bit s in
                              (if b then w64 (a + (if a <=? x then x - a else a - x)) else w64 (a + 2 ^ 64 - (if a <=? x then x - a else a - x)), s0)) = (x, s1)
                /\ bisR s1 (usigns x l ++ rest)).
    { destruct (N.ltb_spec a x) as [H|H].
      - cbn [app] in HR. destruct (N.leb_spec a x); [|lia]. destruct (N.eqb_spec (x - a) 0); [lia|].
        destruct (rbit_bis _ _ _ HR) as (s1 & E1 & HR1). rewrite E1. exists s1. split; [|auto]. f_equal. unfold w64.
        replace (a + (x - a)) with x by lia. apply N.mod_small. lia.
      - destruct (N.ltb_spec x a) as [H'|H'].
        + cbn [app] in HR. destruct (N.leb_spec a x); [lia|]. destruct (N.eqb_spec (a - x) 0); [lia|].
          destruct (rbit_bis _ _ _ HR) as (s1 & E1 & HR1). rewrite E1. exists s1. split; [|auto]. f_equal. unfold w64.
          replace (a + 2 ^ 64 - (a - x)) with (x + 1 * 2 ^ 64) by lia. rewrite N.mod_add by lia. apply N.mod_small. lia.
        + cbn [app] in HR. replace x with a in * by lia. rewrite N.leb_refl, N.sub_diag. cbn [N.eqb]. exists s. auto. }
    destruct G as (s1 & E1 & HR1). rewrite E1. destruct (IH x vw s1 rest) as (s2 & E2 & HR2); auto. rewrite E2.
    unfold trunc. rewrite N.mod_small by auto. eauto.
Qed.
Lemma add_diffs_zero vw s l : Forall (fun x => x = 0) l -> add_diffs false vw 0 (udiffs 0 l) s = (l, s).
Proof.
  induction 1 as [|x l Hx HF IH]; [reflexivity|]. subst x. change (udiffs 0 (0 :: l)) with (0 :: udiffs 0 l).
  assert (E : forall ds, add_diffs false vw 0 (0 :: ds) s = let '(r, s) := add_diffs false vw 0 ds s in (trunc vw 0 :: r, s)) by reflexivity.
  rewrite E, IH. reflexivity.
Qed.

(** *** the runs *)
Definition expand (rs : list (N * N)) : list N := concat (map (fun r => repeat (snd r) (N.to_nat (fst r))) rs).
Lemma repeat_S_end {A} (x : A) n l : repeat x n ++ x :: l = repeat x (S n) ++ l.
Proof. cbn [repeat]. induction n as [|n IH]; cbn [repeat app]; [reflexivity|]. rewrite IH. reflexivity. Qed.
Lemma expand_uruns l : forall cnt last, expand (uruns cnt last l) = repeat last (N.to_nat cnt) ++ l.
Proof.
  induction l as [|x l IH]; intros cnt last; cbn [uruns].
  - destruct (N.ltb_spec 0 cnt); [|replace cnt with 0 by lia; reflexivity]. unfold expand. cbn [map concat snd fst]. rewrite !app_nil_r. reflexivity.
  - destruct (N.eqb_spec x last) as [->|Hx].
    + rewrite IH, repeat_S_end. f_equal. f_equal. lia.
    + unfold expand in *. rewrite map_app, concat_app, IH. change (N.to_nat 1) with 1%nat. cbn [repeat].
      destruct (N.ltb_spec 0 cnt); [|replace cnt with 0 by lia; reflexivity]. cbn [map concat snd fst]. rewrite app_nil_r. reflexivity.
Qed.
Lemma uruns_pos l : forall cnt last, Forall (fun r => 0 < fst r) (uruns cnt last l).
Proof.
  induction l as [|x l IH]; intros cnt last; cbn [uruns].
  - destruct (N.ltb_spec 0 cnt); constructor; auto.
  - destruct (x =? last); auto. apply Forall_app. split; auto. destruct (N.ltb_spec 0 cnt); constructor; auto.
Qed.
Lemma uruns_count l : forall cnt last, N.of_nat (length (uruns cnt last l)) =
  (if 0 <? cnt then 1 else match l with [] => 0 | x :: _ => if x =? last then 1 else 0 end)
  + N.of_nat (length (filter (fun d => negb (d =? 0)) (udiffs last l))).
Proof.
  induction l as [|x l IH]; intros cnt last; cbn [uruns udiffs filter].
  - destruct (0 <? cnt); reflexivity.
  - destruct (N.eqb_spec x last) as [->|Hx].
    + rewrite IH. rewrite N.leb_refl, N.sub_diag. cbn [N.eqb negb]. replace (0 <? cnt + 1) with true by (symmetry; apply N.ltb_lt; lia).
      destruct (0 <? cnt); reflexivity.
    + rewrite app_length, Nat2N.inj_add, IH. change (0 <? 1) with true.
      replace ((if last <=? x then x - last else last - x) =? 0) with false
        by (symmetry; apply N.eqb_neq; destruct (N.leb_spec last x); lia).
      cbn [negb length]. destruct (0 <? cnt); cbn [length]; lia.
Qed.
Lemma uruns_uvals l : N.of_nat (length l) < 2 ^ 34 -> N.of_nat (length (uruns 0 0 l)) = uvals l /\ uvals l <= 2 ^ 34.
Proof.
  intros Hl. rewrite uruns_count. change (0 <? 0) with false. unfold uvals. pose proof (uchanges_le l).
  assert (E : match l with 0 :: _ => 1 | _ => 0 end = match l with [] => 0 | x :: _ => if x =? 0 then 1 else 0 end) by (destruct l as [|[|p] l]; reflexivity).
  rewrite E. fold (uchanges l). set (b := match l with [] => _ | _ => _ end).
  assert (b <= 1) by (unfold b; destruct l; [lia|]; destruct (n =? 0); lia).
  unfold w64. rewrite N.mod_small by lia. lia.
Qed.
Lemma expand_le rs : Forall (fun r => 0 < fst r) rs -> Forall (fun r => (N.to_nat (fst r) <= length (expand rs))%nat /\ In (snd r) (expand rs)) rs.
Proof.
  induction 1 as [|[c v] rs H HF IH]; constructor; unfold expand in *; cbn [map concat fst snd] in *.
  - rewrite app_length, repeat_length. split; [lia|]. apply in_or_app. left. destruct (N.to_nat c) eqn:E; [lia|]. left. reflexivity.
  - eapply Forall_impl; [|exact IH]. cbn. intros [c' v'] [H1 H2]. cbn [fst snd] in *. rewrite app_length. split; [lia|]. apply in_or_app. auto.
Qed.
Lemma read_runs_ok : forall rs fuel w dw vw s rest, (w <= 64)%nat -> (dw <= 64)%nat ->
  Forall (fun r => 0 < fst r < 2 ^ N.of_nat w /\ snd r < 2 ^ N.of_nat dw /\ snd r < 2 ^ vw) rs ->
  (length (expand rs) <= fuel)%nat ->
  bisR s (concat (map (fun r => write_int (fst r) w ++ write_int (snd r) dw) rs) ++ rest) ->
  exists s', read_runs fuel (length (expand rs)) w dw vw s = Some (expand rs, s') /\ bisR s' rest.
Proof.
  induction rs as [|[c v] rs IH]; intros fuel w dw vw s rest Hw Hdw HF Hf HR.
  - exists s. destruct fuel; auto.
  - inversion HF as [|? ? (H1 & H2 & H3) HF']; subst. cbn [fst snd] in *. cbn [map concat fst snd] in HR. rewrite <- !app_assoc in HR.
    destruct (rint_bis _ _ _ _ HR) as (s1 & E1 & HR1); auto; [lia|]. destruct (rint_bis _ _ _ _ HR1) as (s2 & E2 & HR2); auto.
    assert (E : expand ((c, v) :: rs) = repeat v (N.to_nat c) ++ expand rs) by reflexivity. rewrite E in *. rewrite app_length, repeat_length in *.
    destruct fuel as [|fuel]; [lia|].
    destruct (N.to_nat c + length (expand rs))%nat eqn:En; [lia|]. cbn [read_runs]. rewrite E1, E2. rewrite <- En in *. clear n En.
    destruct (Nat.ltb_spec (N.to_nat c + length (expand rs)) (N.to_nat c)); [lia|].
    replace (N.to_nat c + length (expand rs) - N.to_nat c)%nat with (length (expand rs)) by lia.
    destruct (IH fuel w dw vw s2 rest) as (s3 & E3 & HR3); auto; [lia|]. rewrite E3. cbn [obind]. unfold trunc. rewrite N.mod_small by auto. eauto.
Qed.

(** The encoder ends the program exactly if it decides for unary differences
    without signs and an entry is not 0. *)
Definition ud_aborts (w dw : nat) (sign : bool) (l : list N) : Prop :=
  sign = false /\ use_unary w dw l = true /\ ~ Forall (fun x => x = 0) l.
Theorem unary_diff_ok w dw sign vw l : (w <= 64)%nat -> (dw <= 64)%nat -> vw <= 64 ->
  N.of_nat (length l) < 2 ^ N.of_nat w -> N.of_nat (length l) < 2 ^ 34 ->
  Forall (fun x => x < 2 ^ N.of_nat dw /\ x < 2 ^ vw) l ->
  (ud_aborts w dw sign l /\ unary_diff_bits w dw sign l = None) \/
  (~ ud_aborts w dw sign l /\ exists bits, unary_diff_bits w dw sign l = Some bits /\
     forall s rest fuel, bisR s (bits ++ rest) -> (length bits < fuel)%nat ->
       exists s', read_unary_diff fuel (length l) w dw sign vw s = Some (l, s') /\ bisR s' rest).
Proof.
  intros Hw Hdw Hvw Hlw Hl HF. unfold unary_diff_bits, ud_aborts. destruct (use_unary w dw l) eqn:Eu.
  - unfold bits_unary. rewrite nsum_succ, udiffs_length.
    assert (HF' : Forall (fun x => x < 2 ^ vw) l) by (eapply Forall_impl; [|exact HF]; cbn; tauto).
    assert (Hd : Forall (fun x => x < 2 ^ vw) (udiffs 0 l)).
    { apply udiffs_lt; auto. pose proof (N.pow_nonzero 2 vw). lia. }
    destruct sign.
    + right. split; [intros [H _]; discriminate|].
      rewrite (usigns_length l 0). unfold uchanges. rewrite N.eqb_refl. eexists. split; [reflexivity|].
      intros s rest fuel HR Hf. cbn [app] in HR. rewrite <- app_assoc in HR. cbn [length] in Hf. rewrite app_length in Hf.
      destruct (rbit_bis _ _ _ HR) as (s1 & E1 & HR1). unfold read_unary_diff. rewrite E1.
      rewrite <- (udiffs_length l 0). destruct (read_unaries_ok (udiffs 0 l) fuel vw s1 _ Hvw Hd HR1) as (s2 & E2 & HR2); [lia|].
      rewrite E2. cbn [obind]. destruct (add_diffs_sign l 0 vw s2 rest) as (s3 & E3 & HR3); auto.
      { pose proof (N.pow_nonzero 2 vw). lia. }
      rewrite E3. eauto.
    + cbn [length]. pose proof (uchanges_le l) as Hc. destruct (N.eq_dec (uchanges l) 0) as [E0|E0].
      * right. apply uchanges_zero in E0 as Hz. split; [tauto|].
        rewrite E0, !N.add_0_r, N.eqb_refl. eexists. split; [reflexivity|].
        intros s rest fuel HR Hf. rewrite app_nil_r in *. cbn [app] in HR. cbn [length] in Hf.
        destruct (rbit_bis _ _ _ HR) as (s1 & E1 & HR1). unfold read_unary_diff. rewrite E1.
        rewrite <- (udiffs_length l 0). destruct (read_unaries_ok (udiffs 0 l) fuel vw s1 _ Hvw Hd HR1) as (s2 & E2 & HR2); [lia|].
        rewrite E2. cbn [obind]. rewrite add_diffs_zero by auto. eauto.
      * left. split; [split; [auto|split; [auto|]]; intros H; apply uchanges_zero in H; lia|].
        rewrite N.add_0_r. set (a := N.of_nat (length l) + nsum (udiffs 0 l)).
        destruct (N.eqb_spec (w64 a) (w64 (a + uchanges l))) as [Ea|]; [|reflexivity]. exfalso. unfold w64 in Ea.
        pose proof (N.div_mod a (2 ^ 64) ltac:(lia)) as D1. pose proof (N.mod_lt a (2 ^ 64) ltac:(lia)) as L1.
        set (q := a / 2 ^ 64) in *. set (r := a mod 2 ^ 64) in *. clearbody q r.
        assert (Hq : (a + uchanges l) mod 2 ^ 64 = (r + uchanges l) mod 2 ^ 64).
        { rewrite D1. replace (2 ^ 64 * q + r + uchanges l) with (r + uchanges l + q * 2 ^ 64) by lia. rewrite N.mod_add by lia. reflexivity. }
        rewrite Hq in Ea. destruct (N.lt_ge_cases (r + uchanges l) (2 ^ 64)).
        -- rewrite N.mod_small in Ea by auto. lia.
        -- replace (r + uchanges l) with (r + uchanges l - 2 ^ 64 + 1 * 2 ^ 64) in Ea by lia. rewrite N.mod_add in Ea by lia.
           rewrite N.mod_small in Ea by lia. lia.
  - right. split; [intros (_ & H & _); discriminate|].
    destruct (uruns_uvals l Hl) as [Ec Hb]. rewrite Ec, N.eqb_refl. unfold bits_binary. rewrite N.eqb_refl. cbn [andb].
    eexists. split; [reflexivity|]. intros s rest fuel HR Hf. cbn [app] in HR.
    destruct (rbit_bis _ _ _ HR) as (s1 & E1 & HR1). unfold read_unary_diff. rewrite E1.
    assert (Ex : expand (uruns 0 0 l) = l) by (rewrite expand_uruns; reflexivity).
    pose proof (uruns_pos l 0 0) as Hp. pose proof (expand_le _ Hp) as Hle. rewrite Ex in Hle.
    pose proof (read_runs_ok (uruns 0 0 l) (length l) w dw vw s1 rest Hw Hdw) as G. rewrite Ex in G. apply G; auto.
    clear G.
    rewrite Forall_forall in Hp, Hle, HF. apply Forall_forall. intros r Hr. specialize (Hp r Hr). destruct (Hle r Hr) as [L1 L2].
    specialize (HF _ L2). repeat split; try tauto. lia.
Qed.

Theorem d_diff_ok : dcoding_ok d_diff.
Proof.
  intros rhs mx _ Hm Hmx HF. pose proof (bits_forn_33 mx Hmx) as Hw.
  assert (HL : N.of_nat (length rhs) < 2 ^ N.of_nat (bits_forn mx)) by (apply bits_forn_lt; lia).
  assert (HF' : Forall (fun x => x < 2 ^ N.of_nat (bits_forn mx) /\ x < 2 ^ 64) rhs).
  { eapply Forall_impl; [|exact HF]. cbn. intros a Ha. split; [apply bits_forn_lt; auto|]. lia. }
  destruct (unary_diff_ok (bits_forn mx) (bits_forn mx) true 64 rhs) as [[(H & _) _]|[_ (bits & E & H)]]; auto; try lia.
  exists bits. split; [exact E|]. intros s fuel HR Hf. rewrite <- (app_nil_r bits) in HR. destruct (H s [] fuel HR Hf) as (s' & E' & _).
  exists s'. exact E'.
Qed.

(** ** DRangeFit *)
Fixpoint nondec (a : N) (l : list N) : Prop := match l with [] => True | x :: l => a <= x /\ nondec x l end.
Lemma suffix_mins_le l : Forall2 N.le (suffix_mins l) l.
Proof. induction l as [|x l IH]; cbn [suffix_mins]; constructor; auto. apply N.le_min_l. Qed.
Lemma nondec_le a b l : b <= a -> nondec a l -> nondec b l.
Proof. destruct l; cbn; intuition lia. Qed.
Lemma suffix_mins_nondec l : nondec 0 (suffix_mins l).
Proof.
  induction l as [|x l IH]; cbn [suffix_mins nondec]; [auto|]. split; [lia|]. destruct (suffix_mins l) as [|m ms]; [exact I|].
  cbn [hd nondec] in *. split; [apply N.le_min_r|tauto].
Qed.
Lemma flatten_le close l : forall last, nondec last l -> Forall2 N.le (flatten close last l) l.
Proof.
  induction l as [|m l IH]; intros last H; cbn [flatten]; [constructor|]. destruct H as [H1 H2].
  assert (Hm : (if close m last then last else m) <= m) by (destruct (close m last); lia).
  constructor; [auto|]. apply IH. eapply nondec_le; eauto.
Qed.
Lemma Forall2_le_trans a : forall b c, Forall2 N.le a b -> Forall2 N.le b c -> Forall2 N.le a c.
Proof.
  induction a as [|x a IH]; intros b c H1 H2; inversion H1; subst; inversion H2; subst; constructor; eauto. lia.
Qed.
Lemma range_mins_le close rhs : Forall2 N.le (range_mins close rhs) rhs.
Proof.
  unfold range_mins. destruct close as [c|]; [|apply suffix_mins_le].
  eapply Forall2_le_trans; [|apply suffix_mins_le]. apply flatten_le, suffix_mins_nondec.
Qed.
Lemma range_bits_ok zm M : M < 2 ^ 33 -> forall rhs mins mx flush, Forall2 N.le mins rhs -> Forall (fun c => c <= M) rhs -> mx <= M ->
  Forall2 (fun c t => fst t <= c /\ c - fst t < 2 ^ snd t /\ snd t <= 33) rhs (range_bits zm mx flush rhs mins).
Proof.
  intros HM. induction rhs as [|c rhs IH]; intros mins mx flush H2 HF Hmx; [constructor|].
  inversion H2 as [|m ? mins' ? Hm H2']; subst. inversion HF as [|? ? Hc HF']; subst. cbn [range_bits].
  set (mx' := if mx <? c then c else mx). assert (H1 : c <= mx' <= M) by (unfold mx'; destruct (N.ltb_spec mx c); lia).
  set (m' := if _ && _ && _ then 0 else m). assert (H3 : m' <= c) by (unfold m'; destruct (_ && _ && _); lia).
  constructor; [|apply IH; auto; lia]. cbn [fst snd].
  assert (Hb : bits_for (mx' - m') <= 33) by (apply bits_for_min; lia).
  unfold trunc. rewrite N.mod_small by (change (2 ^ 6) with 64; lia). pose proof (bits_for_bound (mx' - m')). repeat split; lia.
Qed.
Lemma range_table_ok close zm M rhs : M < 2 ^ 33 -> Forall (fun c => c <= M) rhs ->
  Forall2 (fun c t => fst t <= c /\ c - fst t < 2 ^ snd t /\ snd t <= 33) rhs (range_table close zm rhs).
Proof. intros HM HF. apply (range_bits_ok zm M); auto; [apply range_mins_le|lia]. Qed.
Lemma read_values_ok : forall rhs t s rest, Forall (fun c => c < 2 ^ 64) rhs ->
  Forall2 (fun c t => fst t <= c /\ c - fst t < 2 ^ snd t /\ snd t <= 33) rhs t ->
  bisR s (range_values rhs t ++ rest) -> exists s', read_values t s = (rhs, s') /\ bisR s' rest.
Proof.
  induction rhs as [|c rhs IH]; intros t s rest HF H2 HR; inversion H2 as [|? [m b] ? t' (H3 & H4 & H5) H2']; subst.
  - exists s. auto.
  - cbn [fst snd] in *. inversion HF; subst. unfold range_values in HR. cbn [combine map concat fst snd] in HR. rewrite <- app_assoc in HR.
    destruct (rint_bis _ _ _ _ HR) as (s1 & E1 & HR1); [lia|rewrite N2Nat.id; auto|]. cbn [read_values]. rewrite E1.
    destruct (IH t' s1 rest) as (s2 & E2 & HR2); auto. rewrite E2. unfold w64. replace (c - m + m) with c by lia. rewrite N.mod_small by auto. eauto.
Qed.
Lemma Forall2_len {A B} (P : A -> B -> Prop) l l' : Forall2 P l l' -> length l = length l'.
Proof. induction 1; cbn; auto. Qed.
Lemma Forall2_Forall_r {A B} (P : A -> B -> Prop) (Q : B -> Prop) l l' : Forall2 P l l' -> (forall a b, In a l -> P a b -> Q b) -> Forall Q l'.
Proof. intros H HQ. induction H; constructor; [eapply HQ; [left; reflexivity|eauto]|]. apply IHForall2. intros; eapply HQ; eauto. right; auto. Qed.

(** The encoder ends the program exactly if it decides for unary differences for the
    minima and one of them is not 0. *)
Definition range_fit_aborts (close : option (N -> N -> bool)) (zm : bool) (rhs : list N) (mx : N) : Prop :=
  let mins := map fst (range_table close zm rhs) in
  use_unary (bits_forn mx) (bits_forn mx) mins = true /\ ~ Forall (fun x => x = 0) mins.
Theorem d_range_fit_exact close zm rhs mx : N.of_nat (length rhs) + 255 = mx -> mx < 2 ^ 33 -> Forall (fun x => x <= mx) rhs ->
  (range_fit_aborts close zm rhs mx /\ dc_enc (d_range_fit close zm) rhs (bits_forn mx) mx = None) \/
  (~ range_fit_aborts close zm rhs mx /\ dc_rt (d_range_fit close zm) rhs (bits_forn mx) mx).
Proof.
  intros Hm Hmx HF. pose proof (bits_forn_33 mx Hmx) as Hw.
  assert (HL : N.of_nat (length rhs) < 2 ^ N.of_nat (bits_forn mx)) by (apply bits_forn_lt; lia).
  pose proof (range_table_ok close zm mx rhs Hmx HF) as HT. pose proof (Forall2_len _ _ _ HT) as Hlen.
  unfold range_fit_aborts, dc_rt. cbn [dc_enc dc_dec d_range_fit]. set (t := range_table close zm rhs) in *.
  assert (HF1 : Forall (fun x => x < 2 ^ N.of_nat (bits_forn mx) /\ x < 2 ^ 64) (map fst t)).
  { apply Forall_map. eapply Forall2_Forall_r; [exact HT|]. cbn. intros c [m b] Hin (H1 & _). cbn [fst snd] in *.
    rewrite Forall_forall in HF. specialize (HF c Hin). split; [apply bits_forn_lt|]; lia. }
  assert (HF2 : Forall (fun x => x < 2 ^ N.of_nat 64 /\ x < 2 ^ 6) (map snd t)).
  { apply Forall_map. eapply Forall2_Forall_r; [exact HT|]. cbn. intros c [m b] Hin (_ & _ & H1). cbn [fst snd] in *.
    split; lia. }
  destruct (unary_diff_ok (bits_forn mx) 64 true 6 (map snd t)) as [[(H & _) _]|[_ (b2 & E2 & H2)]];
    [lia|lia|lia|rewrite map_length; lia|rewrite map_length; lia|exact HF2|discriminate|].
  destruct (unary_diff_ok (bits_forn mx) (bits_forn mx) false 64 (map fst t)) as [[(_ & H) E1]|[Hn (b1 & E1 & H1)]];
    [lia|lia|lia|rewrite map_length; lia|rewrite map_length; lia|exact HF1| |].
  - left. split; [exact H|]. rewrite E1. reflexivity.
  - right. split; [intros H; apply Hn; split; [reflexivity|exact H]|]. rewrite E1, E2. cbn [obind]. eexists. split; [reflexivity|].
    intros s fuel HR Hf. rewrite !app_length in Hf. rewrite map_length, <- Hlen in H1, H2.
    destruct (H1 s _ fuel HR) as (s1 & R1 & HR1); [lia|]. rewrite R1. cbn [obind].
    destruct (H2 s1 _ fuel HR1) as (s2 & R2 & HR2); [lia|]. rewrite R2. cbn [obind]. rewrite combine_split.
    rewrite <- (app_nil_r (range_values rhs t)) in HR2. destruct (read_values_ok rhs t s2 []) as (s3 & R3 & _); auto.
    + eapply Forall_impl; [|exact HF]. cbn. intros; lia.
    + rewrite R3. eauto.
Qed.
