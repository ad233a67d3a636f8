(** Proofs for [uint_t<N>]. *)
From Verif Require Import Base UintT UintSpec.
Open Scope Z_scope.

Lemma two_p_pos k : 0 <= k -> 0 < 2 ^ k.
Proof. intros. apply Z.pow_pos_nonneg; lia. Qed.

Lemma mod_pow_mod z n w : 0 <= n -> n <= w -> (z mod 2 ^ w) mod 2 ^ n = z mod 2 ^ n.
Proof.
  intros Hn Hw. replace w with (n + (w - n)) by lia.
  rewrite Z.pow_add_r by lia.
  rewrite Z.rem_mul_r by (pose proof (two_p_pos n Hn); pose proof (two_p_pos (w - n)); lia).
  rewrite (Z.mul_comm (2 ^ n)), Z_mod_plus_full. apply Z.mod_mod.
  pose proof (two_p_pos n Hn); lia.
Qed.

Lemma sub_pow_mod z n w : 0 <= n -> n <= w -> (z - 2 ^ w) mod 2 ^ n = z mod 2 ^ n.
Proof.
  intros Hn Hw. replace w with ((w - n) + n) by lia.
  rewrite Z.pow_add_r by lia.
  replace (z - 2 ^ (w - n) * 2 ^ n) with (z + (- 2 ^ (w - n)) * 2 ^ n) by lia.
  apply Z_mod_plus_full.
Qed.

Lemma cwidth_pos t : 0 < cwidth t.
Proof. destruct t; reflexivity. Qed.

Lemma cconv_mod t z n : 0 <= n -> n <= cwidth t -> cconv t z mod 2 ^ n = z mod 2 ^ n.
Proof.
  intros Hn Hw. unfold cconv. cbv zeta.
  destruct (csigned t && (2 ^ (cwidth t - 1) <=? z mod 2 ^ cwidth t)).
  - rewrite sub_pow_mod by lia. apply mod_pow_mod; lia.
  - apply mod_pow_mod; lia.
Qed.

Lemma cconv_id t z : crep t z -> cconv t z = z.
Proof.
  unfold crep, cconv. cbv zeta. pose proof (cwidth_pos t) as Hp.
  assert (E : 2 ^ cwidth t = 2 * 2 ^ (cwidth t - 1)).
  { rewrite <- Z.pow_succ_r by lia. f_equal. lia. }
  pose proof (two_p_pos (cwidth t - 1) ltac:(lia)) as Hh.
  set (h := 2 ^ (cwidth t - 1)) in *. rewrite E. clearbody h. clear E Hp.
  destruct (csigned t); cbn [andb]; intros H.
  - destruct (Z.leb_spec 0 z).
    + rewrite Z.mod_small by lia.
      destruct (Z.leb_spec h z); lia.
    + replace (z mod (2 * h)) with (z + 2 * h).
      * destruct (Z.leb_spec h (z + 2 * h)); lia.
      * apply Z.mod_unique with (q := -1); lia.
  - apply Z.mod_small. lia.
Qed.

Lemma cconv_crep t z : crep t (cconv t z).
Proof.
  unfold crep, cconv. cbv zeta. pose proof (cwidth_pos t) as Hp.
  assert (E : 2 ^ cwidth t = 2 * 2 ^ (cwidth t - 1)).
  { rewrite <- Z.pow_succ_r by lia. f_equal. lia. }
  pose proof (two_p_pos (cwidth t - 1) ltac:(lia)) as Hh.
  set (h := 2 ^ (cwidth t - 1)) in *. rewrite E. clearbody h. clear E Hp.
  pose proof (Z.mod_pos_bound z (2 * h) ltac:(lia)).
  destruct (csigned t); cbn [andb]; [ | lia ].
  destruct (Z.leb_spec h (z mod (2 * h))); lia.
Qed.

Lemma ustore_mod n z : 0 <= n <= 64 -> ustore n z = z mod 2 ^ n.
Proof. intros. unfold ustore. apply cconv_mod; cbn [cwidth]; lia. Qed.

(** Bitwise operations commute with reduction modulo a power of two. *)
Lemma testbit_mod z n i : 0 <= n -> Z.testbit (z mod 2 ^ n) i = (Z.testbit z i && (i <? n)).
Proof.
  intros Hn. destruct (Z.ltb_spec i n).
  - rewrite andb_true_r. destruct (Z.leb_spec 0 i).
    + apply Z.mod_pow2_bits_low; lia.
    + rewrite !Z.testbit_neg_r by lia. reflexivity.
  - rewrite andb_false_r. apply Z.mod_pow2_bits_high. lia.
Qed.

Lemma eq_mod_bits a b n : 0 <= n ->
  (forall i, 0 <= i < n -> Z.testbit a i = Z.testbit b i) -> a mod 2 ^ n = b mod 2 ^ n.
Proof.
  intros Hn H. apply Z.bits_inj'. intros i Hi. rewrite !testbit_mod by lia.
  destruct (Z.ltb_spec i n); [ rewrite H by lia; reflexivity | rewrite !andb_false_r; reflexivity ].
Qed.

Lemma eq_bits_mod a b n : 0 <= n -> a mod 2 ^ n = b mod 2 ^ n ->
  forall i, 0 <= i < n -> Z.testbit a i = Z.testbit b i.
Proof.
  intros Hn H i Hi. pose proof (f_equal (fun z => Z.testbit z i) H) as E. cbv beta in E.
  rewrite !testbit_mod in E by lia.
  destruct (Z.ltb_spec i n); [ rewrite !andb_true_r in E; exact E | lia ].
Qed.

Lemma exact_modular op a b a' b' n : 0 <= n -> modular op = true ->
  a mod 2 ^ n = a' mod 2 ^ n -> b mod 2 ^ n = b' mod 2 ^ n ->
  exact op a b mod 2 ^ n = exact op a' b' mod 2 ^ n.
Proof.
  intros Hn Hm Ha Hb. destruct op; try discriminate; cbn [exact].
  - rewrite Z.add_mod, Ha, Hb, <- Z.add_mod by (pose proof (two_p_pos n Hn); lia). reflexivity.
  - rewrite Zminus_mod, Ha, Hb, <- Zminus_mod. reflexivity.
  - rewrite Z.mul_mod, Ha, Hb, <- Z.mul_mod by (pose proof (two_p_pos n Hn); lia). reflexivity.
  - apply eq_mod_bits; [ lia | ]. intros i Hi. rewrite !Z.land_spec.
    rewrite (eq_bits_mod _ _ _ Hn Ha i Hi), (eq_bits_mod _ _ _ Hn Hb i Hi). reflexivity.
  - apply eq_mod_bits; [ lia | ]. intros i Hi. rewrite !Z.lor_spec.
    rewrite (eq_bits_mod _ _ _ Hn Ha i Hi), (eq_bits_mod _ _ _ Hn Hb i Hi). reflexivity.
  - apply eq_mod_bits; [ lia | ]. intros i Hi. rewrite !Z.lxor_spec.
    rewrite (eq_bits_mod _ _ _ Hn Ha i Hi), (eq_bits_mod _ _ _ Hn Hb i Hi). reflexivity.
Qed.

(** The operands of the operators of [uint_t], as the built-in operator sees
    them: type of the computation, and the two operands converted to it. *)
Definition utype (n : Z) (o : operand) : cint :=
  match o with
  | Self _ => selfmax n
  | Other t _ => if with64 t then t else selfmax n
  end.

Definition ucommon (n : Z) (l r : operand) : cint :=
  match l, r with
  | Self _, o => utype n o
  | o, _ => utype n o
  end.

Lemma selfmax_cases n : selfmax n = UInt \/ selfmax n = ULong.
Proof. unfold selfmax. destruct (n <=? 32); auto. Qed.

Lemma selfmax_width n : n <= 64 -> n <= cwidth (selfmax n).
Proof. unfold selfmax. destruct (Z.leb_spec n 32); cbn [cwidth]; lia. Qed.

Lemma selfmax_rep n v : 0 <= n <= 64 -> uvalue n v -> crep (selfmax n) v.
Proof.
  unfold uvalue. intros Hn Hv. pose proof (selfmax_width n ltac:(lia)).
  assert (2 ^ n <= 2 ^ cwidth (selfmax n)) by (apply Z.pow_le_mono_r; lia).
  destruct (selfmax_cases n) as [E|E]; rewrite E in *; unfold crep; cbn [csigned]; lia.
Qed.

Lemma ulong_rep n v : 0 <= n <= 64 -> uvalue n v -> crep ULong v.
Proof.
  unfold uvalue. intros Hn Hv.
  assert (2 ^ n <= 2 ^ 64) by (apply Z.pow_le_mono_r; lia).
  unfold crep. cbn [csigned cwidth]. lia.
Qed.

(** The common type of the built-in operator. *)
Lemma common_selfmax_l n t : with64 t = false ->
  ccommon (cpromote (selfmax n)) (cpromote t) = selfmax n.
Proof. destruct (selfmax_cases n) as [E|E]; rewrite E; destruct t; intros; try discriminate; reflexivity. Qed.
Lemma common_selfmax_r n t : with64 t = false ->
  ccommon (cpromote t) (cpromote (selfmax n)) = selfmax n.
Proof. destruct (selfmax_cases n) as [E|E]; rewrite E; destruct t; intros; try discriminate; reflexivity. Qed.
Lemma common_selfmax n : ccommon (cpromote (selfmax n)) (cpromote (selfmax n)) = selfmax n.
Proof. destruct (selfmax_cases n) as [E|E]; rewrite E; reflexivity. Qed.
Lemma common_64 t : with64 t = true -> ccommon (cpromote t) (cpromote t) = t.
Proof. destruct t; intros; try discriminate; reflexivity. Qed.

Definition is_shift (op : binop) : bool := match op with Shl | Shr => true | _ => false end.

Definition one_self (l r : operand) : Prop :=
  match l, r with Other _ _, Other _ _ => False | _, _ => True end.

Lemma cbin_nonshift op ta a tb b : is_shift op = false ->
  cbin op ta a tb b =
  let t := ccommon (cpromote ta) (cpromote tb) in carith t op (cconv t a) (cconv t b).
Proof. destruct op; intros; try discriminate; reflexivity. Qed.

Lemma cconv_ulong n v : 0 <= n <= 64 -> uvalue n v -> cconv ULong v = v.
Proof. intros. apply cconv_id. eapply ulong_rep; eauto. Qed.
Lemma cconv_selfmax n v : 0 <= n <= 64 -> uvalue n v -> cconv (selfmax n) v = v.
Proof. intros. apply cconv_id. apply selfmax_rep; auto. Qed.
Lemma cconv_idem t z : cconv t (cconv t z) = cconv t z.
Proof. apply cconv_id, cconv_crep. Qed.

(** Every non-shift operator computes in the one type [ucommon]. *)
Lemma ubin_nonshift n op l r : 0 <= n <= 64 -> is_shift op = false -> one_self l r ->
  operand_ok n l -> operand_ok n r ->
  ubin n op l r =
  let t := ucommon n l r in
  do z <- carith t op (cconv t (oval l)) (cconv t (oval r)); Some (t, cconv t z).
Proof.
  intros Hn Hs Ho Hl Hr. unfold ubin, uload.
  destruct l as [a|t x], r as [b|t' y]; cbn [ucommon utype oval]; cbn [operand_ok] in *;
    try contradiction.
  - rewrite cbin_nonshift by assumption. cbv zeta. rewrite common_selfmax.
    rewrite !cconv_idem. reflexivity.
  - destruct (with64 t') eqn:E.
    + rewrite cbin_nonshift by assumption. cbv zeta. rewrite common_64 by assumption.
      rewrite (cconv_ulong n a) by assumption. rewrite !cconv_idem. reflexivity.
    + rewrite cbin_nonshift by assumption. cbv zeta. rewrite common_selfmax_l by assumption.
      rewrite !cconv_idem. reflexivity.
  - destruct (with64 t) eqn:E.
    + rewrite cbin_nonshift by assumption. cbv zeta. rewrite common_64 by assumption.
      rewrite (cconv_ulong n b) by assumption. rewrite !cconv_idem. reflexivity.
    + rewrite cbin_nonshift by assumption. cbv zeta. rewrite common_selfmax_r by assumption.
      rewrite !cconv_idem. reflexivity.
Qed.

Lemma ccmp_eq op ta a tb b : ccmp op ta a tb b =
  let t := ccommon (cpromote ta) (cpromote tb) in zcmp op (cconv t a) (cconv t b).
Proof. reflexivity. Qed.

Lemma ucmp_common n op l r : 0 <= n <= 64 -> one_self l r ->
  operand_ok n l -> operand_ok n r ->
  ucmp n op l r =
  let t := ucommon n l r in Some (zcmp op (cconv t (oval l)) (cconv t (oval r))).
Proof.
  intros Hn Ho Hl Hr. unfold ucmp, uload.
  destruct l as [a|t x], r as [b|t' y]; cbn [ucommon utype oval]; cbn [operand_ok] in *;
    try contradiction.
  - rewrite ccmp_eq. cbv zeta. rewrite common_selfmax, !cconv_idem. reflexivity.
  - destruct (with64 t') eqn:E; rewrite ccmp_eq; cbv zeta.
    + rewrite common_64 by assumption. rewrite (cconv_ulong n a) by assumption.
      rewrite !cconv_idem. reflexivity.
    + rewrite common_selfmax_l by assumption. rewrite !cconv_idem. reflexivity.
  - destruct (with64 t) eqn:E; rewrite ccmp_eq; cbv zeta.
    + rewrite common_64 by assumption. rewrite (cconv_ulong n b) by assumption.
      rewrite !cconv_idem. reflexivity.
    + rewrite common_selfmax_r by assumption. rewrite !cconv_idem. reflexivity.
Qed.

(** *** Modular operators in an unsigned type. *)
Lemma carith_modular t op a b : csigned t = false -> modular op = true ->
  carith t op (cconv t a) (cconv t b) = Some (exact op a b mod 2 ^ cwidth t).
Proof.
  intros Hs Hm.
  assert (H : exact op (cconv t a) (cconv t b) mod 2 ^ cwidth t = exact op a b mod 2 ^ cwidth t).
  { pose proof (cwidth_pos t). apply exact_modular; auto; try lia; apply cconv_mod; lia. }
  assert (C : forall z, cresult t z = Some (z mod 2 ^ cwidth t)).
  { intros z. unfold cresult, cconv. cbv zeta. rewrite Hs. reflexivity. }
  destruct op; try discriminate; cbn [carith exact] in *; rewrite C, H; reflexivity.
Qed.

Lemma utype_width n o : n <= 64 -> n <= cwidth (utype n o).
Proof.
  intros Hn. destruct o as [v|t x]; cbn [utype]; [ apply selfmax_width; lia | ].
  destruct (with64 t) eqn:E; [ | apply selfmax_width; lia ].
  unfold with64 in E. apply Z.eqb_eq in E. lia.
Qed.

Lemma utype_unsigned n o : assignable o -> utype n o = UInt \/ utype n o = ULong.
Proof.
  destruct o as [v|t x]; cbn [utype assignable]; intros H; [ apply selfmax_cases | ].
  destruct t; cbn; try apply selfmax_cases; try tauto; right; reflexivity.
Qed.

Lemma modular_nonshift op : modular op = true -> is_shift op = false.
Proof. destruct op; intros; try discriminate; reflexivity. Qed.

Lemma ucompound_modular n op a o : 2 <= n <= 64 -> modular op = true ->
  uvalue n a -> operand_ok n o -> assignable o ->
  ucompound n op a o = Some (exact op a (oval o) mod 2 ^ n).
Proof.
  intros Hn Hm Ha Ho Has. unfold ucompound.
  assert (one_self (Self a) o) by (destruct o; exact I).
  rewrite ubin_nonshift by (try apply modular_nonshift; cbn [operand_ok]; auto; lia).
  cbv zeta. cbn [ucommon oval]. pose proof (utype_width n o ltac:(lia)) as Hw.
  destruct (utype_unsigned n o Has) as [E|E]; rewrite E in *.
  all: rewrite carith_modular by (auto; reflexivity); cbn [obind].
  all: unfold uassign_overload, uassign; cbn [fst snd]; rewrite ustore_mod by lia.
  all: rewrite cconv_mod by lia; rewrite mod_pow_mod by (cbn [cwidth] in *; lia); reflexivity.
Qed.

(** *** Division and shifts. *)
Lemma opwidth_utype n o : 0 <= n -> opwidth n o = cwidth (utype n o).
Proof.
  intros Hn. destruct o as [v|t x]; cbn [opwidth utype].
  - unfold selfmax. destruct (n <=? 32); reflexivity.
  - unfold with64. destruct (cwidth t =? 64) eqn:E.
    + apply Z.eqb_eq in E. lia.
    + unfold selfmax. destruct (n <=? 32); reflexivity.
Qed.

Lemma utype_self_rep n o v : 0 <= n <= 64 -> csigned (utype n o) = false -> uvalue n v ->
  crep (utype n o) v.
Proof.
  intros Hn Hs Hv. unfold crep. rewrite Hs. unfold uvalue in Hv.
  pose proof (utype_width n o ltac:(lia)).
  assert (2 ^ n <= 2 ^ cwidth (utype n o)) by (apply Z.pow_le_mono_r; lia). lia.
Qed.

Lemma utype_oval_rep n o : 0 <= n <= 64 -> csigned (utype n o) = false -> operand_ok n o ->
  0 <= oval o -> crep (utype n o) (oval o).
Proof.
  intros Hn Hs Ho Hp. destruct o as [v|t x]; cbn [oval operand_ok] in *.
  - apply utype_self_rep; auto.
  - cbn [utype] in *. destruct (with64 t) eqn:E; [ exact Ho | ].
    unfold crep. rewrite Hs. unfold crep in Ho. split; [ lia | ].
    assert (2 ^ 32 <= 2 ^ cwidth (selfmax n)).
    { apply Z.pow_le_mono_r; [ lia | ]. destruct (selfmax_cases n) as [F|F]; rewrite F; cbn [cwidth]; lia. }
    assert (x < 2 ^ 32); [ | lia ].
    destruct t; try discriminate; cbn [csigned cwidth] in Ho; cbn in Ho; cbn; lia.
Qed.

Lemma quot_rep t a b : csigned t = false -> crep t a -> 0 < b -> crep t (Z.quot a b).
Proof.
  unfold crep. intros Hs. rewrite Hs. intros Ha Hb.
  rewrite Z.quot_div_nonneg by lia.
  pose proof (Z.div_pos a b ltac:(lia) ltac:(lia)).
  assert (a / b <= a); [ | lia ].
  apply Z.div_le_upper_bound; nia.
Qed.

Lemma crepb_spec t z : crepb t z = true <-> crep t z.
Proof. unfold crepb, crep. destruct (csigned t); rewrite andb_true_iff; lia. Qed.

Lemma carith_divrem t op a b : csigned t = false -> (op = Div \/ op = Rem) ->
  crep t a -> crep t b -> 0 < b ->
  carith t op (cconv t a) (cconv t b) = Some (exact op a b).
Proof.
  intros Hs Hop Ha Hb Hp. rewrite !cconv_id by assumption.
  pose proof (quot_rep t a b Hs Ha Hp) as Hq.
  assert (Eb : (b =? 0) = false) by lia.
  destruct Hop as [-> | ->]; cbn [carith exact]; rewrite Eb.
  - unfold cresult. rewrite Hs. rewrite cconv_id by assumption. reflexivity.
  - rewrite (proj2 (crepb_spec t _) Hq). unfold cresult. rewrite Hs.
    rewrite cconv_id; [ reflexivity | ].
    unfold crep in *. rewrite Hs in *.
    rewrite Z.rem_mod_nonneg by lia. pose proof (Z.mod_pos_bound a b Hp).
    split; [ lia | ]. pose proof (Z.mod_le a b); lia.
Qed.

Lemma exact_divrem_value n op a b : 0 <= n -> (op = Div \/ op = Rem) -> uvalue n a -> 0 < b ->
  uvalue n (exact op a b).
Proof.
  unfold uvalue. intros Hn Hop Ha Hb. destruct Hop as [-> | ->]; cbn [exact].
  - rewrite Z.quot_div_nonneg by lia. pose proof (Z.div_pos a b ltac:(lia) Hb).
    assert (a / b <= a) by (apply Z.div_le_upper_bound; nia). lia.
  - rewrite Z.rem_mod_nonneg by lia. pose proof (Z.mod_pos_bound a b Hb).
    pose proof (Z.mod_le a b). lia.
Qed.

Lemma unsigned_cases_signed t : t = UInt \/ t = ULong -> csigned t = false.
Proof. intros [-> | ->]; reflexivity. Qed.

Lemma ucompound_divrem n op a o : 2 <= n <= 64 -> (op = Div \/ op = Rem) ->
  uvalue n a -> operand_ok n o -> assignable o -> 0 < oval o ->
  ucompound n op a o = Some (exact op a (oval o)).
Proof.
  intros Hn Hop Ha Ho Has Hp. unfold ucompound.
  assert (one_self (Self a) o) by (destruct o; exact I).
  assert (is_shift op = false) by (destruct Hop as [-> | ->]; reflexivity).
  rewrite ubin_nonshift by (cbn [operand_ok]; auto; lia).
  cbv zeta. cbn [ucommon]. change (oval (Self a)) with a.
  pose proof (utype_unsigned n o Has) as Hu. pose proof (unsigned_cases_signed _ Hu) as Hs.
  rewrite carith_divrem; auto; [ | apply utype_self_rep; auto; lia
                                | apply utype_oval_rep; auto; lia ].
  cbn [obind].
  pose proof (exact_divrem_value n op a (oval o) ltac:(lia) Hop Ha Hp) as Hv.
  rewrite cconv_id by (apply utype_self_rep; auto; lia).
  unfold uassign_overload, uassign. cbn [fst snd].
  destruct Hu as [E|E]; rewrite E; rewrite ustore_mod by lia.
  all: unfold uvalue in Hv; rewrite Z.mod_small by lia; reflexivity.
Qed.

Lemma cpromote_selfmax n : cpromote (selfmax n) = selfmax n.
Proof. destruct (selfmax_cases n) as [E|E]; rewrite E; reflexivity. Qed.

Lemma ubin_shift_self n op a o : 2 <= n <= 64 -> is_shift op = true -> uvalue n a ->
  operand_ok n o -> assignable o -> 0 <= oval o < opwidth n o ->
  ubin n op (Self a) o = Some (utype n o, exact op a (oval o) mod 2 ^ opwidth n o).
Proof.
  intros Hn Hop Ha Ho Has Hp. rewrite opwidth_utype in * by lia.
  pose proof (utype_unsigned n o Has) as Hu. pose proof (unsigned_cases_signed _ Hu) as Hs.
  assert (P : cpromote (utype n o) = utype n o).
  { destruct Hu as [E|E]; rewrite E; reflexivity. }
  assert (C : forall b, b = oval o -> cbin op (utype n o) a (utype n o) b
              = Some (exact op a (oval o) mod 2 ^ cwidth (utype n o))).
  { intros b ->. pose proof (utype_self_rep n o a ltac:(lia) Hs Ha) as Hr.
    assert (Hz : exists z, cbin op (utype n o) a (utype n o) (oval o) = Some z /\
                 z = exact op a (oval o) mod 2 ^ cwidth (utype n o)).
    { destruct op; try discriminate; cbn [cbin]; rewrite P; unfold cshift.
      - destruct (Z.ltb_spec (oval o) 0); [ lia | ].
        destruct (Z.leb_spec (cwidth (utype n o)) (oval o)); [ lia | ]. cbn [orb].
        rewrite Hs. eexists. split; [ reflexivity | ].
        unfold cconv. cbv zeta. rewrite Hs. reflexivity.
      - destruct (Z.ltb_spec (oval o) 0); [ lia | ].
        destruct (Z.leb_spec (cwidth (utype n o)) (oval o)); [ lia | ]. cbn [orb].
        eexists. split; [ reflexivity | ]. cbn [exact].
        unfold crep in Hr. rewrite Hs in Hr. symmetry. apply Z.mod_small.
        pose proof (two_p_pos (oval o) ltac:(lia)).
        split; [ apply Z.div_pos; lia | ].
        assert (a / 2 ^ oval o <= a); [ | lia ]. apply Z.div_le_upper_bound; nia. }
    destruct Hz as (z & E & ->). exact E. }
  assert (M : forall x, cconv (utype n o) (x mod 2 ^ cwidth (utype n o))
              = x mod 2 ^ cwidth (utype n o)).
  { intros x. apply cconv_id. unfold crep. rewrite Hs. apply Z.mod_pos_bound.
    apply two_p_pos. pose proof (cwidth_pos (utype n o)). lia. }
  unfold ubin, uload. cbv zeta.
  destruct o as [b|t x].
  - cbn [utype oval operand_ok] in *.
    rewrite (cconv_selfmax n a), (cconv_selfmax n b) by (auto; lia).
    rewrite C by reflexivity. cbn [obind]. rewrite M. reflexivity.
  - cbn [utype oval operand_ok] in *. destruct (with64 t) eqn:E.
    + rewrite (cconv_ulong n a) by (auto; lia).
      rewrite cconv_id; [ | pose proof (utype_self_rep n (Other t x) a) as Hr;
                            cbn [utype] in Hr; rewrite E in Hr; apply Hr; auto; lia ].
      rewrite C by reflexivity. cbn [obind]. rewrite M. reflexivity.
    + rewrite (cconv_selfmax n a) by (auto; lia).
      replace (cbin op (selfmax n) a t x) with (cbin op (selfmax n) a (selfmax n) x)
        by (destruct op; try discriminate; reflexivity).
      rewrite C by reflexivity. cbn [obind]. rewrite M. reflexivity.
Qed.

Lemma ucompound_shift n op a o : 2 <= n <= 64 -> is_shift op = true ->
  uvalue n a -> operand_ok n o -> assignable o -> 0 <= oval o < opwidth n o ->
  ucompound n op a o = Some (exact op a (oval o) mod 2 ^ n).
Proof.
  intros Hn Hop Ha Ho Has Hp. unfold ucompound. rewrite ubin_shift_self by auto.
  cbn [obind]. unfold uassign_overload, uassign. cbn [fst snd].
  pose proof (utype_width n o ltac:(lia)) as Hw. rewrite opwidth_utype by lia.
  destruct (utype_unsigned n o Has) as [E|E]; rewrite E in *; rewrite ustore_mod by lia.
  all: rewrite mod_pow_mod by lia; reflexivity.
Qed.

(** *** Comparisons. *)
(** The operand is exact in the type the comparison is made in. *)
Definition cmp_safe (n : Z) (o : operand) : Prop :=
  match o with
  | Self _ => True
  | Other t x => if csigned t && (cwidth t =? 64) then n <= 63 else 0 <= x
  end.

Lemma utype_rep_signed64 n t x v : 0 <= n <= 63 -> csigned t = true -> cwidth t = 64 ->
  uvalue n v -> crep (utype n (Other t x)) v.
Proof.
  intros Hn Hs Hw Hv. cbn [utype]. unfold with64. rewrite Hw, Z.eqb_refl.
  unfold crep. rewrite Hs, Hw. unfold uvalue in Hv.
  assert (2 ^ n <= 2 ^ (64 - 1)) by (apply Z.pow_le_mono_r; lia). lia.
Qed.

Lemma utype_cmp n o v : 0 <= n <= 64 -> operand_ok n o -> cmp_safe n o -> uvalue n v ->
  crep (utype n o) v /\ crep (utype n o) (oval o).
Proof.
  intros Hn Ho Hc Hv. destruct o as [b|t x].
  - cbn [operand_ok oval] in *.
    assert (csigned (utype n (Self b)) = false).
    { cbn [utype]. apply unsigned_cases_signed, selfmax_cases. }
    split; apply utype_self_rep; auto.
  - cbn [cmp_safe operand_ok] in *.
    destruct (csigned t && (cwidth t =? 64)) eqn:E.
    + apply andb_true_iff in E. destruct E as [E1 E2]. pose proof E2 as E3.
      apply Z.eqb_eq in E2. split.
      * apply utype_rep_signed64; auto; lia.
      * cbn [utype oval]. unfold with64. rewrite E3. exact Ho.
    + assert (Hs : csigned (utype n (Other t x)) = false).
      { cbn [utype]. unfold with64. destruct (cwidth t =? 64) eqn:F.
        - rewrite andb_true_r in E. exact E.
        - apply unsigned_cases_signed, selfmax_cases. }
      split; [ apply utype_self_rep; auto | apply utype_oval_rep; auto ].
Qed.

Lemma ucmp_exact n op l r : 2 <= n <= 64 -> one_self l r ->
  operand_ok n l -> operand_ok n r -> cmp_safe n l -> cmp_safe n r ->
  ucmp n op l r = Some (zcmp op (oval l) (oval r)).
Proof.
  intros Hn H1 Hl Hr Cl Cr. rewrite ucmp_common by (auto; lia). cbv zeta. f_equal.
  destruct l as [a|t x].
  - change (ucommon n (Self a) r) with (utype n r).
    destruct (utype_cmp n r a ltac:(lia) Hr Cr Hl) as [A B].
    change (oval (Self a)) with a. rewrite !cconv_id by assumption. reflexivity.
  - destruct r as [b|t' y]; [ | contradiction ].
    change (ucommon n (Other t x) (Self b)) with (utype n (Other t x)).
    destruct (utype_cmp n (Other t x) b ltac:(lia) Hl Cl Hr) as [A B].
    change (oval (Self b)) with b. rewrite !cconv_id by assumption. reflexivity.
Qed.

(** *** Value-returning operators. *)
Lemma ubin_modular n op l r : 2 <= n <= 64 -> modular op = true -> one_self l r ->
  operand_ok n l -> operand_ok n r -> csigned (ucommon n l r) = false ->
  ubin n op l r = Some (ucommon n l r, exact op (oval l) (oval r) mod 2 ^ cwidth (ucommon n l r)).
Proof.
  intros Hn Hm H1 Hl Hr Hs.
  rewrite ubin_nonshift by (try apply modular_nonshift; auto; lia). cbv zeta.
  rewrite carith_modular by auto. cbn [obind]. rewrite cconv_id; [ reflexivity | ].
  unfold crep. rewrite Hs. apply Z.mod_pos_bound, two_p_pos.
  pose proof (cwidth_pos (ucommon n l r)); lia.
Qed.
