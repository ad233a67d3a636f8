(** Proofs about the arithmetic coder: code blocks. *)
From Verif Require Import Base BitIO BitIOProofs IntCodes IntCodesProofs Coders CodersProofs LooseCoders HuffmanProofs SLEProofs Arith.
Local Open Scope N_scope.

Lemma u64max_val : u64max = 18446744073709551615. Proof. reflexivity. Qed.
Ltac upow := rewrite ?u64max_val, ?pow64 in *.

Lemma w64_off lo up x : lo <= up <= u64max -> x <= up - lo -> w64 (lo + x) = lo + x.
Proof. intros H1 H2. apply w64_small. upow. lia. Qed.

(** the codebook *)
Fixpoint ctab (i prev : N) (C : list N) : list (N * N) :=
  match C with
  | [] => []
  | y :: r => (if y =? prev then [] else [(i, y)]) ++ ctab (i + 1) y r
  end.
Definition entry_bits (p : N * N) : list bool := write_int (fst p) 8 ++ write_int (snd p) 32.
Lemma entries_ctab C : forall i prev, ac_entries i prev C = flat_map entry_bits (ctab i prev C).
Proof.
  induction C as [|y r IH]; intros i prev; cbn [ac_entries ctab]; [reflexivity|].
  rewrite flat_map_app, IH. destruct (y =? prev); cbn [flat_map]; [reflexivity|].
  unfold entry_bits at 1. cbn [fst snd]. rewrite app_nil_r. reflexivity.
Qed.
Lemma ctab_last C : forall i prev, last (map snd (ctab i prev C)) prev = last C prev.
Proof.
  assert (L : forall (X : list N) y d, last (y :: X) d = last X y).
  { induction X as [|z X IH]; intros y d; auto. change (last (y :: z :: X) d) with (last (z :: X) d). rewrite !IH. reflexivity. }
  induction C as [|y r IH]; intros i prev; cbn [ctab]; [reflexivity|].
  rewrite L. destruct (N.eqb_spec y prev) as [->|H]; cbn [app map snd]; [apply IH|].
  rewrite L. apply IH.
Qed.
Lemma ctab_fst C : forall i prev p, In p (ctab i prev C) -> fst p < i + N.of_nat (length C) /\ In (snd p) C.
Proof.
  induction C as [|y r IH]; intros i prev p; cbn [ctab length]; [intros []|].
  intros H. apply in_app_or in H. destruct H as [H|H].
  - destruct (y =? prev); [destruct H|]. destruct H as [<-|[]]. cbn [fst snd]. split; [lia|left; auto].
  - apply IH in H. destruct H as [H1 H2]. split; [lia|right; auto].
Qed.
Lemma last_nth_error {A} (l : list A) d : l <> [] -> nth_error l (length l - 1) = Some (last l d).
Proof.
  induction l as [|x [|y l] IH]; intros H; [congruence|reflexivity|].
  assert (E : nth_error (y :: l) (length (y :: l) - 1) = Some (last (y :: l) d)) by (apply IH; discriminate).
  change (last (x :: y :: l) d) with (last (y :: l) d). rewrite <- E. cbn [length].
  replace (S (S (length l)) - 1)%nat with (S (S (length l) - 1)) by lia. reflexivity.
Qed.

Section Core.
  Context (g : nat -> N) (T : N).
  Hypothesis g0 : g 0%nat = 0.
  Hypothesis gmono : forall i j, (i <= j)%nat -> g i <= g j.
  Hypothesis g255 : g 255%nat = T.
  Hypothesis g256 : g 256%nat = T.
  Hypothesis HT : 1 <= T < 2147483648.
  Definition C : list N := map g (seq 1 256).
  Definition tab : list (N * N) := ctab 0 0 C.
  Definition pres (v : N) : Prop := v < 256 /\ g (N.to_nat v) < g (S (N.to_nat v)).

  Lemma nth_C i : (i < 256)%nat -> nth_error C i = Some (g (S i)).
  Proof.
    intros H. unfold C. rewrite nth_error_map.
    rewrite (nth_error_nth' _ 0%nat) by (rewrite seq_length; auto). rewrite seq_nth by auto. reflexivity.
  Qed.
  Lemma gT i : (i <= 256)%nat -> g i <= T.
  Proof. intros. rewrite <- g256. apply gmono. auto. Qed.

  Lemma offset_ok range c : T <= range -> range <= u64max -> c <= T -> ac_offset range T c = Some (range / T * c) /\ range / T * c <= range /\ 1 <= range / T.
  Proof.
    intros H1 H2 H3. upow. unfold ac_offset. destruct (N.eqb_spec T 0); [lia|].
    assert (Hq : 1 <= range / T) by (apply N.div_le_lower_bound; lia).
    assert (Hb : range / T * c <= range).
    { transitivity (range / T * T); [apply N.mul_le_mono_l; auto|]. rewrite N.mul_comm. apply N.mul_div_le. lia. }
    split; auto. f_equal. destruct (N.leb_spec range T).
    - assert (range = T) by lia. subst range. rewrite N.div_same by lia.
      assert (T * c <= 2147483647 * 2147483647) by (apply N.mul_le_mono; lia).
      rewrite w64_small by (upow; lia). rewrite N.mul_comm, N.div_mul by lia. lia.
    - apply w64_small. upow. lia.
  Qed.

  (** one literal: the new bounds *)
  Definition slo (lo up v : N) : N := lo + (up - lo) / T * g (N.to_nat v).
  Definition sup (lo up v : N) : N := lo + (up - lo) / T * g (S (N.to_nat v)).
  Lemma step_bounds lo up v : pres v -> lo <= up <= u64max -> T <= up - lo ->
    lo <= slo lo up v /\ slo lo up v < sup lo up v /\ sup lo up v <= up.
  Proof.
    intros [Hv Hp] Hlu Ht. unfold slo, sup.
    assert (Hc : g (S (N.to_nat v)) <= T) by (apply gT; lia).
    destruct (offset_ok (up - lo) (g (S (N.to_nat v))) Ht) as (_ & Ho & Hq); [lia|auto|].
    split; [lia|]. split; [|lia]. apply N.add_lt_mono_l. apply N.mul_lt_mono_pos_l; lia.
  Qed.

  Lemma set_bounds e lo up cnt v : ae_C e = C -> ae_min e = T -> pres v -> lo <= up <= u64max ->
    setNewBounds e (mk_abnd lo up cnt) v =
      Some (if up - lo <? T then (write_int lo 64, slo 0 u64max v, sup 0 u64max v) else ([], slo lo up v, sup lo up v)).
  Proof.
    intros EC EM [Hv Hp] Hlu. unfold setNewBounds. cbn [ab_lo ab_up]. rewrite EC, EM.
    assert (Hs : w64 (up + 2 ^ 64 - lo) = up - lo) by (apply w64_sub; upow; lia).
    rewrite Hs.
    assert (G : forall lo' up', lo' <= up' <= u64max -> T <= up' - lo' -> forall out : list bool,
      (do T0 <- nth_error C 255; do c <- nth_error C (N.to_nat v);
       do ou <- ac_offset (up' - lo') T0 c;
       if v =? 0 then Some (out, lo', w64 (lo' + ou))
       else do c' <- nth_error C (N.to_nat (v - 1)); do ol <- ac_offset (up' - lo') T0 c';
            Some (out, w64 (lo' + ol), w64 (lo' + ou))) = Some (out, slo lo' up' v, sup lo' up' v)).
    { intros lo' up' Hlu' Ht out. rewrite (nth_C 255) by lia. rewrite g256. cbn [obind].
      rewrite nth_C by lia. cbn [obind].
      assert (Hc : g (S (N.to_nat v)) <= T) by (apply gT; lia).
      destruct (offset_ok (up' - lo') (g (S (N.to_nat v)))) as (-> & Ho & _); auto; [lia|]. cbn [obind].
      assert (E1 : w64 (lo' + (up' - lo') / T * g (S (N.to_nat v))) = sup lo' up' v) by (apply (w64_off lo' up'); auto).
      rewrite E1. destruct (N.eqb_spec v 0) as [->|Hv0].
      - unfold slo. rewrite N2Nat.inj_0, g0, N.mul_0_r, N.add_0_r. reflexivity.
      - rewrite nth_C by lia. cbn [obind].
        replace (S (N.to_nat (v - 1))) with (N.to_nat v) by lia.
        assert (Hc' : g (N.to_nat v) <= T) by (apply gT; lia).
        destruct (offset_ok (up' - lo') (g (N.to_nat v))) as (-> & Ho' & _); auto; [lia|]. cbn [obind].
        assert (E2 : w64 (lo' + (up' - lo') / T * g (N.to_nat v)) = slo lo' up' v) by (apply (w64_off lo' up'); auto).
        rewrite E2. reflexivity. }
    destruct (N.ltb_spec (up - lo) T).
    - change u64max with (u64max - 0) at 1. apply G; upow; lia.
    - apply G; auto; lia.
  Qed.

  (** the bits written for a sequence of literals, the last of which is the announced last one *)
  Fixpoint litbits (lo up : N) (ls : list N) : list bool :=
    match ls with
    | [] => []
    | v :: r =>
        let '(out, lo, up) := if up - lo <? T then (write_int lo 64, 0, u64max) else ([], lo, up) in
        out ++ (match r with [] => write_int (slo lo up v) 64 ++ write_int u64max 64 | _ => [] end) ++
        litbits (slo lo up v) (sup lo up v) r
    end.
  (** the code block that starts with bounds lo, up: its literals, its code, and the literals behind it *)
  Fixpoint fin (lo up : N) (ls : list N) : list N * N * list N :=
    match ls with
    | [] => ([], lo, [])
    | v :: r => if up - lo <? T then ([], lo, v :: r)
                else let '(b, c, rest) := fin (slo lo up v) (sup lo up v) r in (v :: b, c, rest)
    end.
  Definition more (rest : list N) : list bool :=
    match rest with [] => write_int u64max 64 | _ => litbits 0 u64max rest end.
  Lemma litbits_fin ls : forall lo up b c rest, ls <> [] -> fin lo up ls = (b, c, rest) ->
    litbits lo up ls = write_int c 64 ++ more rest.
  Proof.
    induction ls as [|v r IH]; intros lo up b c rest Hne E; [congruence|]. cbn [litbits fin] in *.
    destruct (N.ltb_spec (up - lo) T).
    - injection E as <- <- <-. unfold more. cbn [litbits].
      destruct (N.ltb_spec (u64max - 0) T); [upow; lia|]. reflexivity.
    - destruct (fin (slo lo up v) (sup lo up v) r) as [[b' c'] rest'] eqn:Ef. injection E as <- <- <-.
      destruct r as [|w r].
      + cbn [fin] in Ef. injection Ef as <- <- <-. cbn [litbits app more]. rewrite app_nil_r. reflexivity.
      + cbn [app]. eapply IH; eauto. discriminate.
  Qed.
  Lemma fin_split ls : forall lo up b c rest, fin lo up ls = (b, c, rest) -> ls = b ++ rest.
  Proof.
    induction ls as [|v r IH]; intros lo up b c rest E; cbn [fin] in E; [injection E as <- <- <-; auto|].
    destruct (up - lo <? T); [injection E as <- <- <-; auto|].
    destruct (fin (slo lo up v) (sup lo up v) r) as [[b' c'] rest'] eqn:Ef. injection E as <- <- <-.
    cbn [app]. f_equal. eauto.
  Qed.

  (** the search *)
  Lemma search_ok code lo range v : pres v -> T <= range -> range <= u64max -> lo + range <= u64max ->
    lo + range / T * g (N.to_nat v) <= code < lo + range / T * g (S (N.to_nat v)) ->
    forall m k up0, (k <= N.to_nat v < k + m)%nat -> (k + m <= 256)%nat ->
    ac_search code range T lo (ctab (N.of_nat k) (g k) (map g (seq (S k) m))) (lo + range / T * g k) up0
    = Some ([v], lo + range / T * g (N.to_nat v), lo + range / T * g (S (N.to_nat v))).
  Proof.
    intros [Hv Hp] H1 H2 H3 Hcode. induction m as [|m IH]; intros k up0 Hk Hm; [lia|].
    cbn [seq map ctab]. replace (N.of_nat k + 1) with (N.of_nat (S k)) by lia.
    destruct (N.eqb_spec (g (S k)) (g k)) as [E|E]; cbn [app].
    - assert (k <> N.to_nat v) by (intros ->; lia). rewrite E at 1. rewrite <- E. apply IH; lia.
    - cbn [ac_search]. assert (Hc : g (S k) <= T) by (apply gT; lia).
      destruct (offset_ok range (g (S k))) as (-> & Ho & Hq); auto. cbn [obind].
      rewrite w64_small by (upow; lia).
      destruct (Nat.eq_dec k (N.to_nat v)) as [->|Hne].
      + destruct (N.ltb_spec code (lo + range / T * g (S (N.to_nat v)))); [|lia].
        rewrite N2Nat.id. reflexivity.
      + assert (Hg : range / T * g (S k) <= range / T * g (N.to_nat v)) by (apply N.mul_le_mono_l, gmono; lia).
        destruct (N.ltb_spec code (lo + range / T * g (S k))); [lia|]. apply IH; lia.
  Qed.
  Lemma search_tab code lo up v : pres v -> lo <= up <= u64max -> T <= up - lo ->
    slo lo up v <= code < sup lo up v ->
    ac_search code (up - lo) T lo tab lo up = Some ([v], slo lo up v, sup lo up v).
  Proof.
    intros Hp Hlu Ht Hc. unfold tab, C.
    pose proof (search_ok code lo (up - lo) v Hp Ht) as S. specialize (S ltac:(lia) ltac:(lia) Hc 256%nat 0%nat up).
    destruct Hp as [Hv _]. rewrite g0, N.mul_0_r, N.add_0_r in S. apply S; lia.
  Qed.

  Lemma fin_decode ls : forall lo up b c rest, Forall pres ls -> lo < up -> up <= u64max -> fin lo up ls = (b, c, rest) ->
    lo <= c < up /\ ac_decode_loop tab T T c (length ls) lo up = Some (b, length b).
  Proof.
    induction ls as [|v r IH]; intros lo up b c rest Hp Hlu Hu E; cbn [fin] in E.
    - injection E as <- <- <-. split; [lia|]. reflexivity.
    - inversion Hp as [|? ? P1 P2]; subst. cbn [length ac_decode_loop].
      assert (Hs : w64 (up + 2 ^ 64 - lo) = up - lo) by (apply w64_sub; upow; lia). rewrite Hs.
      destruct (N.ltb_spec (up - lo) T) as [Hr|Hr].
      + injection E as <- <- <-. split; [lia|]. destruct (N.leb_spec T (up - lo)); [lia|]. reflexivity.
      + destruct (fin (slo lo up v) (sup lo up v) r) as [[b' c'] rest'] eqn:Ef. injection E as <- <- <-.
        destruct (step_bounds lo up v) as (B1 & B2 & B3); auto; [lia|].
        destruct (IH _ _ _ _ _ P2 B2 (N.le_trans _ _ _ B3 Hu) Ef) as [G1 G2].
        split; [lia|]. destruct (N.leb_spec T (up - lo)); [|lia].
        rewrite (search_tab c' lo up v) by (auto; lia). cbn [obind]. rewrite G2. reflexivity.
  Qed.

  (** a fresh code block *)
  Lemma fresh ls : ls <> [] -> Forall pres ls -> exists b c rest, ls = b ++ rest /\ b <> [] /\ c < u64max /\
    litbits 0 u64max ls = write_int c 64 ++ more rest /\
    ac_decode_loop tab T T c (length ls) 0 u64max = Some (b, length b).
  Proof.
    intros Hne Hp. destruct (fin 0 u64max ls) as [[b c] rest] eqn:E. exists b, c, rest.
    destruct (fin_decode ls 0 u64max b c rest Hp) as [G1 G2]; auto; [upow; lia|upow; lia|].
    split; [eapply fin_split; eauto|]. split; [|split; [lia|split]].
    - destruct ls as [|v r]; [congruence|]. cbn [fin] in E.
      destruct (N.ltb_spec (u64max - 0) T); [upow; lia|].
      destruct (fin (slo 0 u64max v) (sup 0 u64max v) r) as [[b' c'] rest']. injection E as <- <- <-. discriminate.
    - eapply litbits_fin; eauto.
    - exact G2.
  Qed.
End Core.
