(** Property C38: the JSON documents written by tudocomp_stat. *)
From Coq Require Import ZArith.
From Verif Require Import Base IntCodes IntCodesProofs Coders CodersProofs Json JsonSpec.
Local Open Scope N_scope.

(** what a value means *)
Fixpoint den (v : jv) : json :=
  match v with
  | JInt z => Num z
  | JChr c => Str [c]
  | JStr s => Str s
  | JArr l => Arr (map den l)
  | JObj fs => Obj (map (fun p => (fst p, den (snd p))) fs)
  end.
(** values without backslashes and control characters, and without quotes in keys *)
Fixpoint clean (v : jv) : Prop :=
  match v with
  | JInt _ => True
  | JChr c => 32 <= c /\ c <> 92
  | JStr s => Forall (fun c => 32 <= c /\ c <> 92) s
  | JArr l => (fix all l := match l with [] => True | v :: r => clean v /\ all r end) l
  | JObj fs => (fix all fs := match fs with [] => True
                 | (k, v) :: r => Forall plain_char k /\ clean v /\ all r end) fs
  end.

(** ** the escape loop *)
Definition esc1 (c : N) : list N := if c =? 34 then [92; 34] else [c].
Lemma find_quote_none s : forall i pos, (pos <= i)%nat -> Forall (fun c => c <> 34) s -> find_quote s i pos = None.
Proof.
  induction s as [|c s IH]; intros i pos Hi H; auto. inversion H; subst. cbn [find_quote].
  destruct (N.eqb_spec c 34); [congruence|]. rewrite Bool.andb_false_r. apply IH; [lia|auto].
Qed.
Lemma find_quote_skip a : forall s i, find_quote (a ++ s) i (i + length a) = find_quote s (i + length a) (i + length a).
Proof.
  induction a as [|c a IH]; intros s i; cbn [app length find_quote].
  - rewrite Nat.add_0_r. reflexivity.
  - destruct (Nat.leb_spec (i + S (length a)) i); [lia|]. cbn [andb].
    replace (i + S (length a))%nat with (S i + length a)%nat by lia. apply IH.
Qed.
Lemma find_quote_first b s : forall i pos, (pos <= i)%nat -> Forall (fun c => c <> 34) b ->
  find_quote (b ++ 34 :: s) i pos = Some (i + length b)%nat.
Proof.
  induction b as [|c b IH]; intros i pos Hi H; cbn [app find_quote length].
  - destruct (Nat.leb_spec pos i); [|lia]. cbn. rewrite Nat.add_0_r. reflexivity.
  - inversion H; subst. destruct (N.eqb_spec c 34); [congruence|]. rewrite Bool.andb_false_r.
    rewrite IH by (auto; lia). f_equal. lia.
Qed.
Lemma esc1_id b : Forall (fun c => c <> 34) b -> flat_map esc1 b = b.
Proof.
  induction 1 as [|c b H Hb IH]; auto. cbn [flat_map]. rewrite IH. unfold esc1. destruct (N.eqb_spec c 34); [congruence|reflexivity].
Qed.
Lemma split_quote s : Forall (fun c => c <> 34) s \/ exists b r, s = b ++ 34 :: r /\ Forall (fun c => c <> 34) b.
Proof.
  induction s as [|c s IH]; [left; constructor|]. destruct (N.eq_dec c 34) as [->|H].
  - right. exists [], s. split; auto.
  - destruct IH as [IH|(b & r & -> & Hb)]; [left; auto|]. right. exists (c :: b), r. split; auto.
Qed.
Lemma esc_loop_ok fuel : forall a s, (length s <= fuel)%nat ->
  esc_loop fuel (a ++ s) (length a) = Some (a ++ flat_map esc1 s).
Proof.
  induction fuel as [|fuel IH]; intros a s Hf.
  - destruct s; [|cbn in Hf; lia]. cbn [esc_loop flat_map].
    pose proof (find_quote_skip a [] 0) as E. cbn [Nat.add] in E. rewrite E. reflexivity.
  - cbn [esc_loop]. pose proof (find_quote_skip a s 0) as E. cbn [Nat.add] in E. rewrite E.
    destruct (split_quote s) as [H|(b & r & -> & Hb)].
    + rewrite find_quote_none by auto. rewrite esc1_id by auto. reflexivity.
    + rewrite find_quote_first by auto. rewrite flat_map_app, esc1_id by auto. cbn [flat_map].
      change (esc1 34) with [92; 34].
      replace (firstn (length a + length b) (a ++ b ++ 34 :: r)) with (a ++ b).
      2: { rewrite app_assoc, <- app_length, firstn_app, Nat.sub_diag, firstn_all. cbn. rewrite app_nil_r. reflexivity. }
      replace (skipn (length a + length b + 1) (a ++ b ++ 34 :: r)) with r.
      2: { rewrite app_assoc. replace (length a + length b + 1)%nat with (length ((a ++ b) ++ [34])) by (rewrite !app_length; cbn; lia).
           change (34 :: r) with ([34] ++ r). rewrite app_assoc. rewrite skipn_app, skipn_all, Nat.sub_diag. reflexivity. }
      specialize (IH (a ++ b ++ [92; 34]) r). rewrite !app_length in IH. cbn [length] in IH.
      replace (length a + length b + 2)%nat with (length a + (length b + 2))%nat by lia.
      rewrite <- !app_assoc in *. cbn [app] in *. rewrite app_length in Hf. cbn [length] in Hf. apply IH. lia.
Qed.
Lemma escape_ok s : escape s = Some (flat_map esc1 s).
Proof. apply (esc_loop_ok (length s) [] s). auto. Qed.

(** ** strings *)
Lemma pstring_esc s rest : Forall (fun c => 32 <= c /\ c <> 92) s ->
  pstring (flat_map esc1 s ++ 34 :: rest) = Some (s, rest).
Proof.
  induction 1 as [|c s [H1 H2] Hs IH]; [reflexivity|]. cbn [flat_map]. unfold esc1 at 1. destruct (N.eqb_spec c 34) as [->|H3].
  - cbn [app pstring]. rewrite IH. reflexivity.
  - cbn [app pstring]. destruct (N.eqb_spec c 34); [congruence|]. destruct (N.eqb_spec c 92); [congruence|].
    destruct (N.ltb_spec c 32); [lia|]. rewrite IH. reflexivity.
Qed.
Lemma pstring_plain s rest : Forall plain_char s -> pstring (s ++ 34 :: rest) = Some (s, rest).
Proof.
  induction 1 as [|c s (H1 & H2 & H3) Hs IH]; [reflexivity|]. cbn [app pstring].
  destruct (N.eqb_spec c 34); [congruence|]. destruct (N.eqb_spec c 92); [congruence|].
  destruct (N.ltb_spec c 32); [lia|]. rewrite IH. reflexivity.
Qed.

(** ** numbers *)
Lemma dec_digits_ok v : exists d ds, dec_digits v = Some (d :: ds) /\ Forall (fun d => 48 <= d <= 57) (d :: ds) /\
  (d = 48 -> ds = []) /\ fold_left (fun a d => a * 10 + (d - 48)) (d :: ds) 0 = v.
Proof.
  assert (Hs : v < 2 ^ N.of_nat (N.size_nat v)).
  { destruct v as [|p]; [reflexivity|]. cbn [N.size_nat].
    pose proof (N.size_gt (N.pos p)) as G. cbn [N.size] in G.
    replace (N.of_nat (Pos.size_nat p)) with (N.pos (Pos.size p)); auto.
    clear. induction p; cbn [Pos.size Pos.size_nat]; auto; rewrite Nat2N.inj_succ, <- IHp; cbn; auto. }
  destruct (dec_digits_loop_spec _ _ [] Hs) as (ds & H1 & H2 & H3 & H4 & H5).
  rewrite app_nil_r in H1. unfold dec_digits. rewrite H1. specialize (H5 0).
  destruct ds as [|d ds]; [congruence|]. exists d, ds. split; auto. split; auto. split; [|rewrite H5; lia].
  (* no leading zero *)
  clear - H1. revert H1. generalize (N.size_nat v) as fuel. intros fuel H1.
  assert (G : forall fuel v acc d ds, dec_digits_loop fuel v acc = Some (d :: ds) -> d = 48 -> ds = acc /\ v = 0 \/ False).
  { clear. induction fuel as [|fuel IH]; intros v acc d ds H E; [discriminate|]. cbn [dec_digits_loop] in H.
    destruct (N.eqb_spec (v / 10) 0) as [E0|E0].
    - apply Some_inj in H. injection H as <- <-. left. split; auto. apply N.div_small_iff in E0; [|lia].
      rewrite N.mod_small in E by lia. lia.
    - apply IH in H; auto. destruct H as [[_ H]|[]]. congruence. }
  intros E. destruct (G _ _ _ _ _ H1 E) as [[? _]|[]]. auto.
Qed.
Definition no_digit (rest : list N) : Prop := match rest with [] => True | c :: _ => is_digit c = false end.
Lemma span_ok ds rest : Forall (fun d => 48 <= d <= 57) ds -> no_digit rest -> span_digits (ds ++ rest) = (ds, rest).
Proof.
  intros H Hr. induction H as [|d ds Hd Hds IH]; cbn [app span_digits].
  - destruct rest as [|c rest]; auto. cbn [span_digits]. cbn in Hr. rewrite Hr. reflexivity.
  - unfold is_digit. destruct (N.leb_spec 48 d), (N.leb_spec d 57); try lia. cbn [andb]. rewrite IH. reflexivity.
Qed.
Lemma pnum_ok z t rest : int_str z = Some t -> no_digit rest ->
  pnum (t ++ rest) = Some (z, rest) /\ exists c r, t = c :: r /\ (c = 45 \/ 48 <= c <= 57).
Proof.
  intros E Hr. unfold int_str in E. destruct (dec_digits_ok (Z.abs_N z)) as (d & ds & Ed & Hd & H0 & Hv).
  rewrite Ed in E. cbn [obind] in E. apply Some_inj in E.
  assert (Pn : pnat ((d :: ds) ++ rest) = Some (Z.abs_N z, rest)).
  { unfold pnat. rewrite span_ok by auto. destruct (N.eqb_spec d 48) as [E48|E48].
    - rewrite (H0 E48) in *. cbn [andb negb]. rewrite Hv. reflexivity.
    - cbn [andb]. rewrite Hv. reflexivity. }
  inversion Hd as [|? ? Hd1 Hd2]; subst. destruct (Z.ltb_spec z 0).
  - split.
    + cbn [app pnum]. change (45 =? 45) with true. cbv iota. cbn [app] in Pn. rewrite Pn. cbn [obind]. do 2 f_equal. lia.
    + eexists _, _. split; [reflexivity|]. auto.
  - split.
    + cbn [app pnum]. cbn [app] in Pn. destruct (N.eqb_spec d 45); [lia|]. rewrite Pn. cbn [obind]. do 2 f_equal. lia.
    + eexists _, _. split; [reflexivity|]. auto.
Qed.

(** ** values *)
Fixpoint need (v : jv) : nat :=
  match v with
  | JArr l => S ((fix go l := match l with [] => 0%nat | v :: r => S (need v + go r) end) l)
  | JObj fs => S ((fix go fs := match fs with [] => 0%nat | (_, v) :: r => S (need v + go r) end) fs)
  | _ => 1%nat
  end.
Definition needs (l : list jv) : nat := fold_right (fun v a => S (need v + a)) 0%nat l.
Lemma need_arr l : need (JArr l) = S (needs l).
Proof. reflexivity. Qed.
Lemma need_obj fs : need (JObj fs) = S (needs (map snd fs)).
Proof. cbn [need]. f_equal. induction fs as [|[k v] l IH]; auto. cbn [needs fold_right map snd]. fold (needs (map snd l)). rewrite <- IH. reflexivity. Qed.

Fixpoint elems_str (level : nat) (l : list jv) : option (list N) :=
  match l with
  | [] => Some []
  | v :: r => do a <- jstr level v; do b <- elems_str level r;
              Some (a ++ (match r with [] => [] | _ => [44] end) ++ b)
  end.
Fixpoint fields_str (level : nat) (fs : list (list N * jv)) : option (list N) :=
  match fs with
  | [] => Some []
  | (k, v) :: r =>
      do a <- jstr (level + 1) v; do b <- fields_str level r;
      Some (level_indent (level + 1) ++ [34] ++ k ++ [34; 58; 32] ++ a ++
            (match r with [] => [] | _ => [44] end) ++ [10] ++ b)
  end.
Lemma jstr_arr level l : jstr level (JArr l) = do b <- elems_str level l; Some ([91] ++ b ++ [93]).
Proof.
  cbn [jstr]. f_equal. induction l as [|v l IH]; [reflexivity|]. cbn [elems_str]. rewrite <- IH. reflexivity.
Qed.
Lemma jstr_obj level fs : jstr level (JObj fs) =
  do b <- fields_str level fs; Some ([123; 10] ++ b ++ level_indent level ++ [125]).
Proof.
  cbn [jstr]. f_equal. induction fs as [|[k v] l IH]; [reflexivity|]. cbn [fields_str]. rewrite <- IH. reflexivity.
Qed.
Lemma clean_arr l : clean (JArr l) <-> Forall clean l.
Proof.
  cbn [clean]. induction l as [|v l IH]; [split; auto|]. rewrite IH. split.
  - intros [H1 H2]; constructor; auto.
  - intros H; inversion H; subst; auto.
Qed.
Lemma clean_obj fs : clean (JObj fs) <-> Forall (fun p => Forall plain_char (fst p) /\ clean (snd p)) fs.
Proof.
  cbn [clean]. induction fs as [|[k v] l IH]; [split; auto|]. rewrite IH. split.
  - intros (H1 & H2 & H3); constructor; auto.
  - intros H; inversion H as [|? ? [H1 H2] H3]; subst; auto.
Qed.

(** a value's text starts with a character that is neither blank nor a closing bracket *)
Definition good_start (t : list N) : Prop :=
  exists c r, t = c :: r /\ is_ws c = false /\ c <> 93 /\ c <> 125.
Lemma ws_start t rest : good_start t -> ws (t ++ rest) = t ++ rest.
Proof. intros (c & r & -> & H & _). cbn [app ws]. rewrite H. reflexivity. Qed.
Lemma ws_indent n t : ws (level_indent n ++ t) = ws t.
Proof. unfold level_indent. induction (4 * n)%nat as [|m IH]; auto. Qed.

Lemma ws_nb c r : is_ws c = false -> ws (c :: r) = c :: r.
Proof. intros H. cbn [ws]. rewrite H. reflexivity. Qed.
Lemma ws_b c r : is_ws c = true -> ws (c :: r) = ws r.
Proof. intros H. cbn [ws]. rewrite H. reflexivity. Qed.
Lemma starts_eq c r : starts c (c :: r) = Some r.
Proof. cbn [starts]. rewrite N.eqb_refl. reflexivity. Qed.
Lemma starts_ne c x r : x =? c = false -> starts c (x :: r) = None.
Proof. intros H. cbn [starts]. rewrite H. reflexivity. Qed.
Ltac pj := repeat (cbn [app obind]; first [rewrite ws_nb by reflexivity | rewrite ws_b by reflexivity | rewrite ws_indent
  | rewrite starts_eq | rewrite starts_ne by reflexivity]); cbn [app obind].

Definition val_ok (v : jv) : Prop := forall level, clean v ->
  exists t, jstr level v = Some t /\ good_start t /\ (need v <= length t)%nat /\
    forall fuel rest, (need v <= fuel)%nat -> no_digit rest -> pval fuel (t ++ rest) = Some (den v, rest).

Lemma elems_ok l : Forall val_ok l -> forall level, Forall clean l -> l <> [] ->
  exists t, elems_str level l = Some t /\ good_start t /\ (needs l <= S (length t))%nat /\
    forall fuel rest, (needs l <= fuel)%nat -> pelems fuel (t ++ 93 :: rest) = Some (map den l, rest).
Proof.
  induction 1 as [|v l Hv Hl IH]; intros level Hc Hn; [congruence|]. inversion Hc as [|? ? C1 C2]; subst.
  destruct (Hv level C1) as (t & E1 & G1 & L1 & P1). cbn [elems_str]. rewrite E1. cbn [obind].
  assert (Gs : forall b, good_start (t ++ b)).
  { intros b. destruct G1 as (c & r & -> & G). exists c, (r ++ b). auto. }
  destruct l as [|v' l].
  - cbn [elems_str obind]. eexists. split; [reflexivity|]. cbn [app]. rewrite app_nil_r. split; auto.
    cbn [needs fold_right]. split; [lia|]. intros [|fuel] rest Hf; [lia|]. cbn [pelems].
    rewrite P1 by (reflexivity || lia). cbn. reflexivity.
  - destruct (IH level C2 ltac:(discriminate)) as (t2 & E2 & G2 & L2 & P2). rewrite E2. cbn [obind].
    eexists. split; [reflexivity|]. split; auto. cbn [needs fold_right] in *. split; [rewrite !app_length; cbn [length]; lia|].
    intros [|fuel] rest Hf; [lia|]. cbn [pelems]. rewrite <- !app_assoc. rewrite P1 by (reflexivity || lia). cbn [obind app].
    change (ws (44 :: t2 ++ 93 :: rest)) with (44 :: t2 ++ 93 :: rest). cbn [starts]. change (44 =? 44) with true. cbv iota.
    rewrite P2 by lia. reflexivity.
Qed.
Lemma fields_ok fs : Forall (fun p => val_ok (snd p)) fs -> forall level,
  Forall (fun p => Forall plain_char (fst p) /\ clean (snd p)) fs -> fs <> [] ->
  exists t, fields_str level fs = Some t /\ (exists r, ws t = 34 :: r) /\ (needs (map snd fs) <= length t)%nat /\
    forall fuel rest n, (needs (map snd fs) <= fuel)%nat ->
      pfields fuel (t ++ level_indent n ++ 125 :: rest) = Some (map (fun p => (fst p, den (snd p))) fs, rest).
Proof.
  induction 1 as [|[k v] l Hv Hl IH]; intros level Hc Hn; [congruence|]. inversion Hc as [|? ? [C0 C1] C2]; subst.
  cbn [fst snd] in *. destruct (Hv (level + 1)%nat C1) as (t & E1 & G1 & L1 & P1). cbn [fields_str]. rewrite E1. cbn [obind].
  destruct l as [|p' l].
  - cbn [fields_str obind]. eexists. split; [reflexivity|]. split.
    { rewrite ws_indent. eexists. reflexivity. }
    cbn [needs fold_right map snd]. split; [rewrite !app_length; cbn [length]; lia|].
    intros [|fuel] rest n Hf; [lia|]. cbn [pfields]. rewrite <- !app_assoc, ws_indent. cbn [app].
    pj.
    rewrite pstring_plain by auto. pj.
    assert (P1' : forall rest', no_digit rest' -> pval fuel (32 :: t ++ rest') = Some (den v, rest')).
    { intros rest' Hr. rewrite <- (P1 fuel rest') by (auto; lia). destruct fuel; [reflexivity|]. reflexivity. }
    rewrite P1' by reflexivity. pj.
    pj. reflexivity.
  - destruct (IH level C2 ltac:(discriminate)) as (t2 & E2 & G2 & L2 & P2). rewrite E2. cbn [obind].
    eexists. split; [reflexivity|]. split.
    { rewrite ws_indent. eexists. reflexivity. }
    cbn [needs fold_right map snd] in *. split; [rewrite !app_length; cbn [length]; lia|].
    intros [|fuel] rest n Hf; [lia|]. cbn [pfields]. rewrite <- !app_assoc, ws_indent. cbn [app].
    pj. rewrite pstring_plain by auto. pj.
    assert (P1' : forall rest', no_digit rest' -> pval fuel (32 :: t ++ rest') = Some (den v, rest')).
    { intros rest' Hr. rewrite <- (P1 fuel rest') by (auto; lia). destruct fuel; reflexivity. }
    rewrite P1' by reflexivity. pj.
    assert (P2' : forall f x, pfields f (10 :: x) = pfields f x) by (intros [|f] x; reflexivity).
    rewrite P2'. rewrite P2 by lia. reflexivity.
Qed.

Fixpoint jv_all (P : jv -> Prop) (HI : forall z, P (JInt z)) (HC : forall c, P (JChr c)) (HS : forall s, P (JStr s))
  (HA : forall l, Forall P l -> P (JArr l)) (HO : forall fs, Forall (fun p => P (snd p)) fs -> P (JObj fs)) (v : jv) : P v :=
  match v with
  | JInt z => HI z
  | JChr c => HC c
  | JStr s => HS s
  | JArr l => HA l ((fix go l : Forall P l := match l with [] => Forall_nil _
                      | v :: r => Forall_cons v (jv_all P HI HC HS HA HO v) (go r) end) l)
  | JObj fs => HO fs ((fix go fs : Forall (fun p => P (snd p)) fs := match fs with [] => Forall_nil _
                      | p :: r => Forall_cons p (jv_all P HI HC HS HA HO (snd p)) (go r) end) fs)
  end.
Lemma values_ok v : val_ok v.
Proof.
  induction v as [z|c|s|l IH|fs IH] using jv_all; intros level Hc.
  - unfold jstr, int_str. destruct (dec_digits_ok (Z.abs_N z)) as (d & ds & Ed & _).
    assert (exists t, int_str z = Some t) as (t & Et) by (unfold int_str; rewrite Ed; eexists; reflexivity).
    fold (int_str z). exists t. split; auto.
    destruct (pnum_ok z t [] Et I) as (_ & c & r & -> & Hcr). split.
    { exists c, r. split; auto. split; [|lia]. unfold is_ws.
      destruct (N.eqb_spec c 32), (N.eqb_spec c 9), (N.eqb_spec c 10), (N.eqb_spec c 13); try lia; reflexivity. }
    split; [cbn; lia|]. intros [|fuel] rest Hf Hr; [cbn in Hf; lia|]. cbn [pval].
    rewrite ws_start. 2: { exists c, r. split; auto. split; [|lia]. unfold is_ws.
      destruct (N.eqb_spec c 32), (N.eqb_spec c 9), (N.eqb_spec c 10), (N.eqb_spec c 13); try lia; reflexivity. }
    destruct (pnum_ok z (c :: r) rest Et Hr) as (Pz & _). cbn [app starts].
    destruct (N.eqb_spec c 34); [lia|]. destruct (N.eqb_spec c 91); [lia|]. destruct (N.eqb_spec c 123); [lia|].
    cbn [app] in Pz. rewrite Pz. reflexivity.
  - cbn [jstr]. eexists. split; [reflexivity|]. cbn [clean] in Hc. split.
    { eexists _, _. split; [reflexivity|]. split; [reflexivity|lia]. }
    split; [cbn; lia|]. intros [|fuel] rest Hf Hr; [cbn in Hf; lia|]. cbn [pval]. pj.
    pose proof (pstring_esc [c] rest) as E. cbn [flat_map] in E. rewrite app_nil_r in E. unfold esc1 in E.
    rewrite <- app_assoc. cbn [app]. rewrite E by (constructor; auto). reflexivity.
  - cbn [jstr]. rewrite escape_ok. cbn [obind]. eexists. split; [reflexivity|]. split.
    { eexists _, _. split; [reflexivity|]. split; [reflexivity|lia]. }
    split; [cbn; lia|]. intros [|fuel] rest Hf Hr; [cbn in Hf; lia|]. cbn [pval]. pj.
    rewrite <- app_assoc. cbn [app]. rewrite pstring_esc by exact Hc. reflexivity.
  - rewrite jstr_arr, need_arr. apply clean_arr in Hc. destruct l as [|v l].
    + cbn [elems_str obind]. eexists. split; [reflexivity|]. split.
      { eexists _, _. split; [reflexivity|]. split; [reflexivity|lia]. }
      split; [cbn; lia|]. intros [|fuel] rest Hf Hr; [lia|]. reflexivity.
    + destruct (elems_ok (v :: l) IH level Hc ltac:(discriminate)) as (t & -> & G & L & P). cbn [obind].
      eexists. split; [reflexivity|]. split.
      { eexists _, _. split; [reflexivity|]. split; [reflexivity|lia]. }
      split; [rewrite !app_length; cbn [length]; lia|]. intros [|fuel] rest Hf Hr; [lia|].
      cbn [pval]. pj. rewrite <- app_assoc. cbn [app].
      rewrite ws_start by auto. destruct G as (c & r & -> & G1 & G2 & G3). cbn [app starts].
      destruct (N.eqb_spec c 93); [congruence|]. change (c :: r ++ 93 :: rest) with ((c :: r) ++ 93 :: rest).
      rewrite P by lia. reflexivity.
  - rewrite jstr_obj, need_obj. apply clean_obj in Hc. destruct fs as [|p fs].
    + cbn [fields_str obind]. eexists. split; [reflexivity|]. split.
      { eexists _, _. split; [reflexivity|]. split; [reflexivity|lia]. }
      split; [cbn; lia|]. intros [|fuel] rest Hf Hr; [lia|].
      cbn [pval]. pj. rewrite <- app_assoc, ws_indent. reflexivity.
    + destruct (fields_ok (p :: fs) IH level Hc ltac:(discriminate)) as (t & -> & (r & G) & L & P). cbn [obind].
      eexists. split; [reflexivity|]. split.
      { eexists _, _. split; [reflexivity|]. split; [reflexivity|lia]. }
      split; [rewrite !app_length; cbn [length]; lia|]. intros [|fuel] rest Hf Hr; [lia|].
      cbn [pval]. pj. rewrite <- !app_assoc. cbn [app].
      assert (Ew : exists r', ws (t ++ level_indent level ++ 125 :: rest) = 34 :: r').
      { revert G. clear. intros G. exists (r ++ level_indent level ++ 125 :: rest).
        change (34 :: r ++ level_indent level ++ 125 :: rest) with ((34 :: r) ++ level_indent level ++ 125 :: rest). rewrite <- G.
        generalize (level_indent level ++ 125 :: rest). intros q. clear - G. induction t as [|c t IHt]; [discriminate|].
        cbn [app ws] in *. destruct (is_ws c); auto. }
      destruct Ew as (r' & ->). cbn [starts]. change (34 =? 125) with false. cbv iota.
      assert (P2' : forall f x, pfields f (10 :: x) = pfields f x) by (intros [|f] x; reflexivity).
      rewrite P2'. rewrite P by lia. reflexivity.
Qed.

(** C38. Every value without backslashes, control characters and (in keys) quotes is written as
    well-formed JSON that denotes exactly this value; string values may contain quotes. *)
Theorem json_roundtrip : forall v, clean v -> exists t, jstr 0 v = Some t /\ parse t = Some (den v).
Proof.
  intros v Hc. destruct (values_ok v 0%nat Hc) as (t & E & _ & L & P). exists t. split; auto.
  unfold parse. specialize (P (S (length t)) []). rewrite app_nil_r in P. rewrite P by (auto; cbn; auto; lia). reflexivity.
Qed.
Print Assumptions json_roundtrip.

(** C38. So documents of different clean values differ. *)
Theorem json_injective : forall u v t, clean u -> clean v -> jstr 0 u = Some t -> jstr 0 v = Some t -> den u = den v.
Proof.
  intros u v t Hu Hv Eu Ev. destruct (json_roundtrip u Hu) as (t1 & E1 & P1). destruct (json_roundtrip v Hv) as (t2 & E2 & P2).
  congruence.
Qed.
Print Assumptions json_injective.

(** C38. Backslashes are not escaped: a string ending in one swallows its closing quote - the
    document is not JSON - ... *)
Theorem json_backslash_refuted : forall s t, Forall plain_char s -> jstr 0 (JStr (s ++ [92])) = Some t -> parse t = None.
Proof.
  intros s t Hs E. cbn [jstr] in E. rewrite escape_ok in E. cbn [obind] in E. apply Some_inj in E. subst t.
  rewrite flat_map_app. cbn [flat_map]. rewrite esc1_id by (revert Hs; apply Forall_impl; intros a (? & ? & ?); auto).
  rewrite <- app_assoc. cbn [app].
  assert (Ep : pstring (s ++ [92; 34]) = None).
  { induction Hs as [|c s (H1 & H2 & H3) Hs IH]; [reflexivity|]. cbn [app pstring].
    destruct (N.eqb_spec c 34); [congruence|]. destruct (N.eqb_spec c 92); [congruence|].
    destruct (N.ltb_spec c 32); [lia|]. rewrite IH. reflexivity. }
  unfold parse. cbn [pval]. pj. change (esc1 92) with [92]. cbn [app]. rewrite Ep. reflexivity.
Qed.
Print Assumptions json_backslash_refuted.
(** ... a backslash followed by n is read back as a newline, ... *)
Theorem json_backslash_n_refuted : exists t, jstr 0 (JStr [92; 110]) = Some t /\ parse t = Some (Str [10]).
Proof. eexists. split; reflexivity. Qed.
Print Assumptions json_backslash_n_refuted.
(** ... and a quote in a key ends the key. *)
Theorem json_key_refuted : forall k v t, Forall plain_char k -> clean v ->
  jstr 0 (JObj [(k ++ [34], v)]) = Some t -> parse t = None.
Proof.
  intros k v t Hk Hv E. rewrite jstr_obj in E. cbn [fields_str] in E.
  destruct (values_ok v (0 + 1)%nat Hv) as (tv & Ev & _). rewrite Ev in E. cbn [obind] in E. apply Some_inj in E. subst t.
  unfold parse. cbn [length pval]. pj.
  rewrite <- !app_assoc, ws_indent. pj. 
  match goal with |- context [pfields ?f ?x] => remember f as fuel eqn:Hf; clear Hf end.
  destruct fuel as [|fuel]; [reflexivity|].
  cbn [pfields]. pj.
  rewrite <- !app_assoc. cbn [app]. rewrite pstring_plain by auto. reflexivity.
Qed.
Print Assumptions json_key_refuted.

(** jset keeps the fields ordered and answers lookups like a map *)
Fixpoint jget (fs : list (list N * jv)) (k : list N) : option jv :=
  match fs with
  | [] => None
  | (k', v) :: r => if list_eq_dec N.eq_dec k k' then Some v else jget r k
  end.
Lemma key_lt_irrefl a : key_lt a a = false.
Proof. induction a as [|x a IH]; auto. cbn [key_lt]. rewrite N.ltb_irrefl. auto. Qed.
Lemma key_lt_total a : forall b, key_lt a b = false -> key_lt b a = false -> a = b.
Proof.
  induction a as [|x a IH]; destruct b as [|y b]; cbn [key_lt]; intros H1 H2; try discriminate; auto.
  destruct (N.ltb_spec x y); [discriminate|]. destruct (N.ltb_spec y x); [discriminate|]. f_equal; [lia|auto].
Qed.
Lemma key_lt_trans a : forall b c, key_lt a b = true -> key_lt b c = true -> key_lt a c = true.
Proof.
  induction a as [|x a IH]; intros [|y b] [|z c]; cbn [key_lt]; intros H1 H2; try discriminate; auto.
  destruct (N.ltb_spec x y), (N.ltb_spec y z), (N.ltb_spec x z); auto; try lia.
  - destruct (N.ltb_spec z y); [discriminate|]. lia.
  - destruct (N.ltb_spec y x); [discriminate|]. lia.
  - destruct (N.ltb_spec y x); [discriminate|]. destruct (N.ltb_spec z y); [discriminate|].
    destruct (N.ltb_spec z x); [lia|]. eapply IH; eauto.
Qed.
Inductive ordered : list (list N * jv) -> Prop :=
| ord_nil : ordered []
| ord_cons : forall k v r, Forall (fun p => key_lt k (fst p) = true) r -> ordered r -> ordered ((k, v) :: r).
(** C38. Object::set behaves like updating a finite map, and members are written in key order. *)
Theorem json_set_spec : forall fs k v, ordered fs -> ordered (jset fs k v) /\
  forall k', jget (jset fs k v) k' = if list_eq_dec N.eq_dec k' k then Some v else jget fs k'.
Proof.
  intros fs k v H. induction H as [|k0 v0 r HF HO [IH1 IH2]]; cbn [jset].
  - split; [constructor; constructor|]. intros k'. reflexivity.
  - destruct (key_lt k k0) eqn:E1; [|destruct (key_lt k0 k) eqn:E2].
    + split; [|intros k'; reflexivity]. constructor; [|constructor; auto]. constructor; auto.
      revert HF. apply Forall_impl. intros p Hp. eapply key_lt_trans; eauto.
    + split.
      * constructor; auto. clear - HF E2. induction HF as [|[k1 v1] r H HF IH]; cbn [jset]; [constructor; auto|].
        destruct (key_lt k k1); [constructor; auto|]. destruct (key_lt k1 k); constructor; auto.
      * intros k'. cbn [jget]. rewrite IH2. destruct (list_eq_dec N.eq_dec k' k0) as [->|]; auto.
        destruct (list_eq_dec N.eq_dec k0 k) as [->|]; auto. rewrite key_lt_irrefl in E2. discriminate.
    + assert (k = k0) as -> by (apply key_lt_total; auto). split; [constructor; auto|].
      intros k'. cbn [jget]. destruct (list_eq_dec N.eq_dec k' k0); auto.
Qed.
Print Assumptions json_set_spec.

Definition ex_obj : jv := JObj (jset (jset (jset [] [116] (JStr [97; 34; 98])) [109] (JInt (-12))) [97] (JArr [JInt 0; JChr 34; JObj []])).
Example json_ex : clean ex_obj /\ (do t <- jstr 0 ex_obj; parse t) =
  Some (Obj [([97], Arr [Num 0; Str [34]; Obj []]); ([109], Num (-12)); ([116], Str [97; 34; 98])]).
Proof. split; [|vm_compute; reflexivity]. vm_compute. repeat split; try discriminate; repeat constructor; discriminate. Qed.
