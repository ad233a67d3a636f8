(** C54: [uint_t<N>] is arithmetic modulo 2^N. *)
From Verif Require Import Base UintT UintSpec UintProofs.
Open Scope Z_scope.

(** Storing any integer of any built-in type keeps it modulo 2^N, and reading
    it back into a type that can hold it gives it. *)
Theorem uint_store_load : forall n t t' z, 2 <= n <= 64 -> crep t z ->
  ustore n z = z mod 2 ^ n /\
  (crep t' (z mod 2 ^ n) -> uload t' (ustore n z) = z mod 2 ^ n) /\
  (uvalue n z -> crep t' z -> uload t' (ustore n z) = z).
Proof.
  intros n t t' z Hn Hz. rewrite ustore_mod by lia. repeat split.
  - intros H. apply cconv_id, H.
  - intros Hv H. unfold uvalue in Hv. rewrite Z.mod_small by lia. apply cconv_id, H.
Qed.

(** The compound assignments.  Ring and bitwise operators take any operand,
    negative ones included; division and remainder a positive one; shifts a
    count below the width of the type computed in. *)
Theorem uint_compound : forall n op a o, 2 <= n <= 64 ->
  uvalue n a -> operand_ok n o -> assignable o ->
  (modular op = true -> ucompound n op a o = Some (exact op a (oval o) mod 2 ^ n)) /\
  ((op = Div \/ op = Rem) -> 0 < oval o ->
     ucompound n op a o = Some (exact op a (oval o))) /\
  ((op = Shl \/ op = Shr) -> 0 <= oval o < opwidth n o ->
     ucompound n op a o = Some (exact op a (oval o) mod 2 ^ n)).
Proof.
  intros n op a o Hn Ha Ho Has. split; [ | split ].
  - intros. apply ucompound_modular; auto.
  - intros. apply ucompound_divrem; auto.
  - intros Hop ?. apply ucompound_shift; auto. destruct Hop as [-> | ->]; reflexivity.
Qed.

(** Any sequence of [+=], [-=], [*=], [&=], [|=], [^=] with operands of any
    types ends with the integer the same sequence computes without bounds,
    modulo 2^N: nothing is lost by truncating in between. *)
Fixpoint urun (n : Z) (a : Z) (ops : list (binop * operand)) : option Z :=
  match ops with
  | [] => Some a
  | (op, o) :: ops => do a' <- ucompound n op a o; urun n a' ops
  end.

Fixpoint zrun (a : Z) (ops : list (binop * operand)) : Z :=
  match ops with
  | [] => a
  | (op, o) :: ops => zrun (exact op a (oval o)) ops
  end.

Lemma zrun_mod n ops : 0 <= n -> Forall (fun p => modular (fst p) = true) ops ->
  forall a b, a mod 2 ^ n = b mod 2 ^ n -> zrun a ops mod 2 ^ n = zrun b ops mod 2 ^ n.
Proof.
  intros Hn. induction ops as [|[op o] ops IH]; intros H a b E; [ exact E | ].
  inversion H; subst. cbn [zrun]. apply IH; auto. apply exact_modular; auto.
Qed.

Theorem uint_history : forall n z ops, 2 <= n <= 64 ->
  Forall (fun p => modular (fst p) = true /\ operand_ok n (snd p) /\ assignable (snd p)) ops ->
  urun n (ustore n z) ops = Some (zrun z ops mod 2 ^ n).
Proof.
  intros n z ops Hn Hops.
  assert (G : forall a, uvalue n a -> urun n a ops = Some (zrun a ops mod 2 ^ n)).
  { induction ops as [|[op o] ops IH]; intros a Ha.
    - cbn [urun zrun]. unfold uvalue in Ha. rewrite Z.mod_small by lia. reflexivity.
    - inversion Hops as [|? ? (Hm & Ho & Has) Hr]; subst. cbn [fst snd] in *.
      cbn [urun zrun]. rewrite ucompound_modular by auto. cbn [obind].
      rewrite IH; auto.
      + f_equal. apply zrun_mod; [ lia | | ].
        * apply Forall_forall. intros p Hp. rewrite Forall_forall in Hr. apply Hr, Hp.
        * apply Z.mod_mod. pose proof (two_p_pos n); lia.
      + apply Z.mod_pos_bound, two_p_pos. lia. }
  rewrite ustore_mod by lia. rewrite G.
  - f_equal. apply zrun_mod; [ lia | | ].
    + apply Forall_forall. intros p Hp. rewrite Forall_forall in Hops. apply Hops, Hp.
    + apply Z.mod_mod. pose proof (two_p_pos n); lia.
  - apply Z.mod_pos_bound, two_p_pos. lia.
Qed.

(** Increment and decrement wrap around; the postfix forms return the old
    value. *)
Theorem uint_incdec : forall n a, 2 <= n <= 64 -> uvalue n a ->
  upreinc n a = Some ((a + 1) mod 2 ^ n) /\ upredec n a = Some ((a - 1) mod 2 ^ n) /\
  upostinc n a = Some (a, (a + 1) mod 2 ^ n) /\ upostdec n a = Some (a, (a - 1) mod 2 ^ n).
Proof.
  intros n a Hn Ha.
  assert (H1 : operand_ok n (Other UInt 1)) by (cbn; lia).
  assert (H2 : assignable (Other UInt 1)) by (cbn; repeat split; discriminate).
  unfold upreinc, upredec, upostinc, upostdec, uload.
  rewrite !ucompound_modular by auto. cbn [exact oval obind].
  rewrite cconv_selfmax by (auto; lia). repeat split.
Qed.

(** The operators that return a value: the type of the result, and the value.
    In an unsigned type it is the exact result modulo the size of the type
    (so exact if it fits); in a signed 64-bit type, for N <= 63, it is the
    exact result unless that overflows. *)
Theorem uint_operators : forall n op l r, 2 <= n <= 64 -> has_self l r ->
  operand_ok n l -> operand_ok n r ->
  let t := restype n l r in
  (modular op = true -> csigned t = false ->
     ubin n op l r = Some (t, exact op (oval l) (oval r) mod 2 ^ cwidth t)) /\
  (modular op = true -> csigned t = true -> n <= 63 -> crep t (exact op (oval l) (oval r)) ->
     ubin n op l r = Some (t, exact op (oval l) (oval r))) /\
  ((op = Div \/ op = Rem) -> csigned t = false -> 0 <= oval l -> 0 < oval r ->
     ubin n op l r = Some (t, exact op (oval l) (oval r))).
Proof.
  intros n op l r Hn H1 Hl Hr t.
  assert (Et : t = ucommon n l r) by (destruct l, r; reflexivity).
  assert (H2 : one_self l r) by (destruct l, r; auto).
  clearbody t. subst t. split; [ | split ].
  - intros. apply ubin_modular; auto.
  - intros Hm Hs H63 Hx.
    rewrite ubin_nonshift by (try apply modular_nonshift; auto; lia). cbv zeta.
    assert (W : forall o v, csigned (utype n o) = true -> uvalue n v ->
                crep (utype n o) v /\ (operand_ok n o -> crep (utype n o) (oval o))).
    { intros o v Hso Hv. destruct o as [b|t x].
      - cbn [utype] in Hso. destruct (selfmax_cases n) as [E|E]; rewrite E in Hso; discriminate.
      - assert (E : csigned t = true /\ cwidth t = 64).
        { cbn [utype] in Hso. destruct (with64 t) eqn:F.
          - unfold with64 in F. split; [ exact Hso | lia ].
          - destruct (selfmax_cases n) as [E|E]; rewrite E in Hso; discriminate. }
        destruct E as [E1 E2]. split.
        + apply utype_rep_signed64; auto; lia.
        + intros Ho. cbn [utype oval operand_ok] in *. unfold with64. rewrite E2. exact Ho. }
    assert (R : crep (ucommon n l r) (oval l) /\ crep (ucommon n l r) (oval r)).
    { destruct l as [a|t x].
      - cbn [ucommon] in *. destruct (W r a Hs Hl) as [A B]. split; auto.
      - destruct r as [b|t' y]; [ | contradiction ]. cbn [ucommon] in *.
        destruct (W (Other t x) b Hs Hr) as [A B]. split; auto. }
    destruct R as [Ra Rb]. rewrite !(cconv_id _ _ Ra), !(cconv_id _ _ Rb).
    assert (C : carith (ucommon n l r) op (oval l) (oval r)
                = cresult (ucommon n l r) (exact op (oval l) (oval r)))
      by (destruct op; try discriminate; reflexivity).
    rewrite C. unfold cresult. rewrite Hs, (proj2 (crepb_spec _ _) Hx). cbn [obind].
    rewrite cconv_id by assumption. reflexivity.
  - intros Hop Hs Hp Hq.
    assert (is_shift op = false) by (destruct Hop as [-> | ->]; reflexivity).
    rewrite ubin_nonshift by (auto; lia). cbv zeta.
    assert (R : crep (ucommon n l r) (oval l) /\ crep (ucommon n l r) (oval r)).
    { destruct l as [a|t x].
      - cbn [ucommon] in *. split.
        + apply utype_self_rep; auto; lia.
        + apply utype_oval_rep; auto; lia.
      - destruct r as [b|t' y]; [ | contradiction ]. cbn [ucommon] in *. split.
        + apply utype_oval_rep; auto; lia.
        + apply utype_self_rep; auto; lia. }
    destruct R as [Ra Rb]. rewrite carith_divrem by auto. cbn [obind].
    rewrite cconv_id; [ reflexivity | ].
    unfold crep in *. rewrite Hs in *. destruct Hop as [-> | ->]; cbn [exact].
    + rewrite Z.quot_div_nonneg by lia. split; [ apply Z.div_pos; lia | ].
      assert (oval l / oval r <= oval l); [ | lia ]. apply Z.div_le_upper_bound; nia.
    + rewrite Z.rem_mod_nonneg by lia. pose proof (Z.mod_pos_bound (oval l) (oval r) Hq).
      pose proof (Z.mod_le (oval l) (oval r)). lia.
Qed.

(** The complement: all bits of the result type flipped, so that the N stored
    bits are those of 2^N - 1 - a. *)
Theorem uint_complement : forall n a, 2 <= n <= 64 -> uvalue n a ->
  unot n a = (restype n (Self a) (Self a), 2 ^ opwidth n (Self a) - 1 - a) /\
  ustore n (snd (unot n a)) = 2 ^ n - 1 - a.
Proof.
  intros n a Hn Ha.
  assert (E : unot n a = (restype n (Self a) (Self a), 2 ^ opwidth n (Self a) - 1 - a)).
  { unfold unot, uload. rewrite (cconv_selfmax n a) by (auto; lia).
    cbn [restype opwidth]. unfold selfmax, uvalue, Z.lnot in *. f_equal.
    destruct (Z.leb_spec n 32).
    - assert (2 ^ n <= 2 ^ 32) by (apply Z.pow_le_mono_r; lia).
      unfold cconv. cbn [csigned cwidth andb]. symmetry.
      apply Z.mod_unique with (q := -1); lia.
    - assert (2 ^ n <= 2 ^ 64) by (apply Z.pow_le_mono_r; lia).
      unfold cconv. cbn [csigned cwidth andb]. symmetry.
      apply Z.mod_unique with (q := -1); lia. }
  split; [ exact E | ]. rewrite E. cbn [snd opwidth]. rewrite ustore_mod by lia.
  unfold uvalue in Ha. symmetry.
  assert (W : exists w, (if n <=? 32 then 32 else 64) = n + w /\ 0 <= w)
    by (destruct (Z.leb_spec n 32); [ exists (32 - n) | exists (64 - n) ]; lia).
  destruct W as (w & -> & Hw). rewrite Z.pow_add_r by lia.
  apply Z.mod_unique with (q := 2 ^ w - 1); lia.
Qed.

(** Comparisons agree with the integers. *)
Theorem uint_compare : forall n op l r, 2 <= n <= 64 -> has_self l r ->
  operand_ok n l -> operand_ok n r -> comparable n l -> comparable n r ->
  ucmp n op l r = Some (zcmp op (oval l) (oval r)).
Proof. intros. apply ucmp_exact; auto. Qed.

Definition oeqb (a b : option Z) : bool :=
  match a, b with Some x, Some y => x =? y | None, None => true | _, _ => false end.
Lemma oeqb_eq a b : oeqb a b = true -> a = b.
Proof.
  destruct a, b; cbn [oeqb]; try discriminate; auto. intros H. f_equal. apply Z.eqb_eq, H.
Qed.

(** [std::numeric_limits<uint_t<N>>::max()] is the largest value exactly up to
    N = 53; from N = 54 to 63 it is 0. *)
Theorem uint_limits_max : forall n, 2 <= n <= 53 -> ulimits_max n = Some (2 ^ n - 1).
Proof.
  intros n Hn.
  assert (H : In n (map Z.of_nat (seq 2 52))).
  { apply in_map_iff. exists (Z.to_nat n). split; [ lia | ]. apply in_seq. lia. }
  assert (F : forallb (fun n => oeqb (ulimits_max n) (Some (2 ^ n - 1)))
                (map Z.of_nat (seq 2 52)) = true) by (vm_compute; reflexivity).
  rewrite forallb_forall in F. apply oeqb_eq, F, H.
Qed.

Theorem uint_limits_max_refuted : forall n, 54 <= n <= 63 ->
  ulimits_max n = Some 0 /\ ulimits_max n <> Some (2 ^ n - 1).
Proof.
  intros n Hn.
  assert (H : In n (map Z.of_nat (seq 54 10))).
  { apply in_map_iff. exists (Z.to_nat n). split; [ lia | ]. apply in_seq. lia. }
  assert (F : forallb (fun n => oeqb (ulimits_max n) (Some 0))
                (map Z.of_nat (seq 54 10)) = true) by (vm_compute; reflexivity).
  rewrite forallb_forall in F. rewrite (oeqb_eq _ _ (F n H)). split; [ reflexivity | ].
  intros E. injection E as E.
  assert (2 ^ 54 <= 2 ^ n) by (apply Z.pow_le_mono_r; lia).
  change (2 ^ 54) with 18014398509481984 in *. lia.
Qed.

(** Outside these domains the claims fail: a negative [int] is not less than
    a [uint_t], a signed 64-bit zero is not below 2^63 in a [uint_t<64>],
    dividing by a negative [int] divides by a number near 2^32, [1 << x] is
    computed in [int] whatever N is, and [uint_t<1>] is [bool]: it stores 2
    as 1 and does not wrap. *)
Theorem uint_outside_refuted :
  ucmp 8 Lt (Other SInt (-1)) (Self 5) = Some false /\
  ucmp 64 Lt (Other SLong 0) (Self (2 ^ 63)) = Some false /\
  ucompound 8 Div 200 (Other SInt (-1)) = Some 0 /\
  ubin 40 Shl (Other SInt 1) (Self 35) = None /\
  bstore 2 = 1 /\ bcompound Add 1 SInt 1 = Some 1.
Proof. repeat split; vm_compute; reflexivity. Qed.

(** Non-vacuity. *)
Example uint_ex1 :
  ucompound 40 Mul (2 ^ 39 + 3) (Other SChar (-2)) = Some ((2 ^ 39 + 3) * -2 mod 2 ^ 40) /\
  ucompound 10 Xor 1000 (Other ULong (2 ^ 63 + 7)) = Some 1007 /\
  ucompound 24 Shl 5 (Other UInt 23) = Some (2 ^ 23) /\
  urun 10 (ustore 10 (-3)) [(Mul, Self 1023); (Sub, Other SShort (-7)); (Or, Other ULong 48)]
    = Some 58.
Proof. repeat split; vm_compute; reflexivity. Qed.

Example uint_ex2 :
  Forall (fun p => modular (fst p) = true /\ operand_ok 10 (snd p) /\ assignable (snd p))
    [(Mul, Self 1023); (Sub, Other SShort (-7)); (Or, Other ULong 48)].
Proof. repeat constructor; try discriminate; vm_compute; congruence. Qed.

Example uint_ex3 :
  ucmp 40 Gt (Self (2 ^ 39)) (Other SInt 7) = Some true /\
  ucmp 8 Gt (Self 3) (Other SLong (-1)) = Some true /\
  ubin 8 Sub (Self 3) (Other UChar 5) = Some (UInt, 2 ^ 32 - 2) /\
  ubin 8 Sub (Self 3) (Other SLong 5) = Some (SLong, -2) /\
  unot 8 3 = (UInt, 2 ^ 32 - 4) /\ ustore 8 (2 ^ 32 - 4) = 252.
Proof. repeat split; vm_compute; reflexivity. Qed.

Print Assumptions uint_store_load.
Print Assumptions uint_compound.
Print Assumptions uint_history.
Print Assumptions uint_incdec.
Print Assumptions uint_operators.
Print Assumptions uint_complement.
Print Assumptions uint_compare.
Print Assumptions uint_limits_max.
Print Assumptions uint_limits_max_refuted.
Print Assumptions uint_outside_refuted.
