(** LZW with the Cedar trie on texts without the bytes 0 and 255. *)
From Coq Require Import ZArith List Lia.
From Verif Require Import Base Coders LZ LZProofs Cedar CedarRing CedarAlloc CedarTree CedarMove CedarStep CedarLoop CedarUpdate.
Import ListNotations.
Local Open Scope Z_scope.

Lemma slot0 ch d c t : okay ch d -> ch 0 c = Some t -> t = c.
Proof.
  intros (R & B & A & T) E. destruct (tr_slot _ _ _ _ T 0 c t ltac:(lia) E) as [_ ->].
  pose proof (tr_root _ _ _ _ T) as [_ ->]. apply Z.lxor_0_l.
Qed.

Lemma find1_ok ch d q l : okay ch d -> inner ch q -> (q <> 0 -> ch q 0 <> None) -> 0 < l < 256 ->
  match ch q l with
  | Some t => forall t0, ch t 0 = Some t0 -> find1 d q l = Some (inr (Some (ab d t0), t))
  | None => find1 d q l = Some (inl tt)
  end.
Proof.
  intros (R & B & A & T) I C Hl.
  assert (C0 : q = 0 \/ ch q 0 <> None) by (destruct (Z.eq_dec q 0); auto).
  destruct (base_big ch d q T I C0) as (G & B1 & B2).
  pose proof (cell_in R B ch d q l A T I C0 ltac:(lia) ltac:(lia)) as CI.
  pose proof (inner_pos _ _ _ _ _ T I) as P.
  unfold find1. replace (ab d q <? 0) with false by lia. replace (c_size d <=? Z.lxor (ab d q) l) with false by lia.
  destruct (ch q l) as [t|] eqn:E.
  - intros t0 E0. destruct (tr_slot _ _ _ _ T q l t ltac:(lia) E) as [_ <-].
    pose proof (tr_ch _ _ _ _ T _ _ _ E) as (U & -> & _). rewrite Z.eqb_refl. cbn [negb].
    assert (It : inner ch t) by (right; exists q, l; split; [lia|auto]).
    assert (t0' : t <> 0) by (destruct U; lia).
    destruct (base_big ch d t T It) as (G' & B1' & _); [right; congruence|].
    destruct (B1' t0') as [_ E1]. rewrite E0 in E1. apply Some_inj in E1. rewrite <- E1 in *.
    replace (t0 <? 0) with false by lia.
    pose proof (tr_ch _ _ _ _ T _ _ _ E0) as (_ & -> & _). rewrite Z.eqb_refl. reflexivity.
  - destruct (Z.eqb_spec (ac d (Z.lxor (ab d q) l)) q) as [K|]; [|reflexivity].
    exfalso. assert (U : used d (Z.lxor (ab d q) l)) by (split; [auto|lia]).
    apply (cell_owner ch d q l T I U) in K. congruence.
Qed.

Definition letter (c : Z) : Prop := 0 < c < 255.
Definition gid (E : list (N * N)) (i : N) : Prop := (0 < i < 255 \/ 256 <= i < 256 + N.of_nat (length E))%N.

Record crel (ch : kids) (nd : N -> Z) (t : ctrie) (E : list (N * N)) : Prop := {
  cr_ok : okay ch (t_arr t);
  cr_ids : t_ids t = 256 + Z.of_nat (length E);
  cr_root : forall c, (0 < c < 255)%N -> t_roots t (Z.of_N c) = Z.of_N c /\ nd c = Z.of_N c /\ ch 0 (Z.of_N c) = Some (Z.of_N c);
  cr_node : forall i, gid E i -> inner ch (nd i) /\ nd i <> 0 /\ ch (nd i) 0 <> None;
  cr_inj : forall i j, gid E i -> gid E j -> nd i = nd j -> i = j;
  cr_par : forall p c, In (p, c) E -> (p < 256 + N.of_nat (length E))%N;
  cr_kid : forall p c, gid E p -> (0 < c < 255)%N ->
    ch (nd p) (Z.of_N c) = option_map (fun k => nd (256 + N.of_nat k)%N) (ent_find E p c);
  cr_val : forall k, (k < length E)%nat -> exists t0, ch (nd (256 + N.of_nat k)%N) 0 = Some t0 /\ ab (t_arr t) t0 = 257 + Z.of_nat k }.

Lemma ent_find_lt E p c k : ent_find E p c = Some k -> (k < length E)%nat.
Proof.
  revert k. induction E as [|[p' c'] E IH]; intros k; cbn [ent_find length]; [discriminate|].
  destruct ((p' =? p)%N && (c' =? c)%N); [intros H; apply Some_inj in H; lia|].
  destruct (ent_find E p c) as [j|]; cbn; [|discriminate]. intros H. apply Some_inj in H. specialize (IH j eq_refl). lia.
Qed.
Lemma ent_find_snoc E p c p' c' : ent_find (E ++ [(p, c)]) p' c' =
  match ent_find E p' c' with Some k => Some k | None => if (p =? p')%N && (c =? c')%N then Some (length E) else None end.
Proof.
  induction E as [|[a b] E IH]; cbn [app ent_find length].
  - destruct ((p =? p')%N && (c =? c')%N); reflexivity.
  - destruct ((a =? p')%N && (b =? c')%N); [reflexivity|]. rewrite IH. destruct (ent_find E p' c'); cbn; [reflexivity|].
    destruct ((p =? p')%N && (c =? c')%N); reflexivity.
Qed.
Lemma ent_find_none E p c : (forall p' c', In (p', c') E -> p' <> p) -> ent_find E p c = None.
Proof.
  induction E as [|[a b] E IH]; intros H; cbn [ent_find]; auto.
  replace (a =? p)%N with false by (symmetry; apply N.eqb_neq; apply (H a b); left; auto). cbn [andb].
  rewrite IH; auto. intros p' c' I. apply (H p' c'). right; auto.
Qed.

Lemma cedar_find_ok ch nd t E p c : crel ch nd t E -> gid E p -> (0 < c < 255)%N ->
  match ent_find E p c with
  | Some k => cedar_find (nd p) (Z.of_N c) t = Some (256 + Z.of_nat k, false, nd (256 + N.of_nat k)%N, t)
  | None => exists n t' ch' nd', cedar_find (nd p) (Z.of_N c) t = Some (256 + Z.of_nat (length E), true, n, t') /\
      crel ch' nd' t' (E ++ [(p, c)])
  end.
Proof.
  intros H Gp Hc. destruct (cr_node _ _ _ _ H p Gp) as (Ip & P0 & Pt).
  unfold cedar_find, ESC. replace (Z.of_N c =? 0) with false by lia. replace (Z.of_N c =? 255) with false by lia. cbn [orb].
  unfold foi1. pose proof (find1_ok ch (t_arr t) (nd p) (Z.of_N c) (cr_ok _ _ _ _ H) Ip (fun _ => Pt) ltac:(lia)) as F.
  pose proof (cr_kid _ _ _ _ H p c Gp Hc) as K.
  destruct (ent_find E p c) as [k|] eqn:EF; cbn [option_map] in K; rewrite K in F.
  - pose proof (ent_find_lt _ _ _ _ EF) as Lk. destruct (cr_val _ _ _ _ H k Lk) as (t0 & V1 & V2).
    rewrite (F t0 V1), V2. cbn [obind]. replace (257 + Z.of_nat k =? -1) with false by lia.
    replace (257 + Z.of_nat k =? -2) with false by lia. cbn [orb]. do 4 f_equal. lia.
  - rewrite F. cbn [obind].
    pose proof (update_ok ch (t_arr t) (nd p) (Z.of_N c) (t_ids t + 1) (cr_ok _ _ _ _ H) (fun _ => Pt) Ip K ltac:(lia)) as U.
    destruct (update1 (nd p) (Z.of_N c) (t_ids t + 1) (t_arr t)) as [n d'].
    destruct U as (ch' & s & OK & FT & (X1 & _ & X3 & X4 & X5 & X6) & NK & t0 & V1 & V2).
    set (new := (256 + N.of_nat (length E))%N).
    exists n, (mk_ctrie d' (t_ids t + 1) (t_roots t)), ch', (fun i => if (i =? new)%N then n else s (nd i)).
    split; [do 4 f_equal; rewrite (cr_ids _ _ _ _ H); lia|].
    pose proof (cr_ok _ _ _ _ H) as (R & B & A & T). destruct OK as (R' & B' & A' & T').
    assert (Gold : forall i, gid (E ++ [(p, c)]) i -> i = new \/ i <> new /\ gid E i).
    { intros i. unfold gid, new. rewrite app_length. cbn [length]. lia. }
    assert (Gne : forall i, gid E i -> (i =? new)%N = false).
    { intros i. unfold gid, new. lia. }
    assert (In' : inner ch' n) by (right; exists (s (nd p)), (Z.of_N c); split; [lia|auto]).
    assert (n0 : n <> 0) by (apply (tr_ch _ _ _ _ T') in X6; destruct X6 as ([] & _); lia).
    pose proof (ren_inner _ _ _ _ _ _ _ _ _ T X3 X1) as RI.
    assert (Sn : forall i, gid E i -> s (nd i) <> n).
    { intros i Gi Q. destruct (cr_node _ _ _ _ H i Gi) as ([|(r & l & L0 & Er)] & Q0 & _); [congruence|].
      assert (Ir : inner ch r) by (apply (tr_ch _ _ _ _ T) in Er; tauto).
      pose proof (X1 r Ir l) as Xr. rewrite Er, Q in Xr.
      assert (s r = s (nd p)).
      { pose proof (tr_ch _ _ _ _ T' _ _ _ Xr) as (_ & J1 & _). pose proof (tr_ch _ _ _ _ T' _ _ _ X6) as (_ & J2 & _). congruence. }
      rewrite H0 in Xr. pose proof (tr_inj _ _ _ _ T' _ _ _ _ Xr X6). subst l.
      assert (r = nd p) by (apply X4; auto). congruence. }
    constructor; cbn [t_arr t_ids t_roots].
    + exists R', B'. auto.
    + rewrite (cr_ids _ _ _ _ H), app_length. cbn [length]. lia.
    + intros i Hi. destruct (cr_root _ _ _ _ H i Hi) as (Y1 & Y2 & Y3). split; auto.
      pose proof (X1 0 (or_introl eq_refl) (Z.of_N i)) as X0. rewrite Y3, X3 in X0.
      assert (Q : s (Z.of_N i) = Z.of_N i) by (apply (slot0 ch' d'); [exists R', B'; auto|auto]).
      rewrite Gne by (left; auto). rewrite Y2. split; congruence.
    + intros i Gi. destruct (Gold i Gi) as [->|[_ Gi']].
      * rewrite N.eqb_refl. split; auto. split; auto. congruence.
      * rewrite Gne by auto. destruct (cr_node _ _ _ _ H i Gi') as (Y1 & Y2 & Y3). split; [auto|]. split; [|apply FT; auto].
        intros Q. apply Y2. apply X4; [auto|left; auto|congruence].
    + intros i j Gi Gj Q. destruct (Gold i Gi) as [Ei|[Ni Gi']], (Gold j Gj) as [Ej|[Nj Gj']].
      * congruence.
      * rewrite Ei, N.eqb_refl, Gne in Q by auto. exfalso. apply (Sn j); auto.
      * rewrite Ej, N.eqb_refl, Gne in Q by auto. exfalso. apply (Sn i); auto.
      * rewrite !Gne in Q by auto. apply (cr_inj _ _ _ _ H); auto. apply X4; auto; apply (cr_node _ _ _ _ H); auto.
    + intros a b I. rewrite app_length. cbn [length]. apply in_app_iff in I as [I|[I|[]]].
      * apply (cr_par _ _ _ _ H) in I. lia.
      * injection I as <- <-. unfold gid in Gp. lia.
    + intros a b Ga Hb. rewrite ent_find_snoc. destruct (Gold a Ga) as [->|[Na Ga']].
      * rewrite N.eqb_refl, NK by lia. rewrite ent_find_none.
        -- replace (p =? new)%N with false; [reflexivity|]. symmetry. apply N.eqb_neq. intros ->. pose proof (Gne _ Gp). rewrite N.eqb_refl in H0. discriminate.
        -- intros p' c' I ->. apply (cr_par _ _ _ _ H) in I. unfold new in I. lia.
      * rewrite Gne by auto. pose proof (cr_kid _ _ _ _ H a b Ga' Hb) as Kb. destruct (cr_node _ _ _ _ H a Ga') as (Ia & _ & _).
        pose proof (X1 (nd a) Ia (Z.of_N b)) as Xa. destruct (ent_find E a b) as [k|] eqn:Ek; cbn [option_map] in *.
        -- rewrite Kb in Xa. rewrite Xa. pose proof (ent_find_lt _ _ _ _ Ek). rewrite Gne; auto. right. lia.
        -- rewrite Kb in Xa. destruct (N.eqb_spec p a) as [->|Npa]; [destruct (N.eqb_spec c b) as [->|Ncb]|]; cbn [andb option_map].
           ++ rewrite X6. unfold new. rewrite N.eqb_refl. reflexivity.
           ++ destruct Xa as [Xa|(_ & _ & Xb)]; [exact Xa|]. exfalso. lia.
           ++ destruct Xa as [Xa|(_ & Xb & _)]; [exact Xa|]. exfalso. apply Npa. symmetry. apply (cr_inj _ _ _ _ H); auto.
    + intros k Hk. rewrite app_length in Hk. cbn [length] in Hk.
      destruct (Nat.eq_dec k (length E)) as [->|Nk].
      * unfold new. rewrite N.eqb_refl. exists t0. split; auto. rewrite V2, (cr_ids _ _ _ _ H). lia.
      * rewrite Gne by (right; lia). destruct (cr_val _ _ _ _ H k ltac:(lia)) as (t1 & W1 & W2). exists (s t1). split.
        -- assert (Ik : inner ch (nd (256 + N.of_nat k)%N)) by (apply (cr_node _ _ _ _ H); right; lia).
           pose proof (X1 _ Ik 0) as Xk. rewrite W1 in Xk. exact Xk.
        -- rewrite (X5 _ _ W1). exact W2.
Qed.

Definition cletters (text : list N) : Prop := Forall (fun c => 0 < c < 255)%N text.
Lemma clzw_loop_ok : forall text ch nd t E node fc, crel ch nd t E -> gid E node -> cletters text ->
  (N.of_nat (length E + length text) + 256 < 2 ^ 32)%N ->
  clzw_loop t (Z.of_N node) (nd node) fc text = lzw_loop spec_trie 0 (mk_atrie 256 E) node fc text.
Proof.
  induction text as [|c text IH]; intros ch nd t E node fc H G L Hl; cbn [clzw_loop lzw_loop].
  - rewrite N2Z.id. reflexivity.
  - inversion L as [|? ? Lc L']; subst. cbn [length] in Hl. pose proof (cedar_find_ok ch nd t E node c H G Lc) as F.
    cbn [t_find spec_trie]. unfold at_find. cbn [a_ent a_roots]. destruct (ent_find E node c) as [k|] eqn:EF.
    + rewrite F. cbn [obind]. pose proof (ent_find_lt _ _ _ _ EF) as Lk.
      replace ((256 + Z.of_nat k) mod 2 ^ 32) with (Z.of_N (256 + N.of_nat k)) by (rewrite Z.mod_small; lia).
      apply (IH ch nd t E); auto; [right; lia|lia].
    + destruct F as (n & t' & ch' & nd' & -> & H'). cbn [obind].
      destruct (cr_root _ _ _ _ H' c Lc) as (Y1 & Y2 & _). unfold cedar_root. rewrite Y1.
      pose proof (IH ch' nd' t' (E ++ [(node, c)]) c (fc + 1)%N H' (or_introl Lc) L' ltac:(rewrite app_length; cbn [length]; lia)) as K.
      rewrite Y2 in K. rewrite K.
      rewrite N2Z.id. cbn [t_root t_size spec_trie]. unfold at_size. cbn [a_roots a_ent].
      replace (256 + N.of_nat (length (E ++ [(node, c)])) =? 0)%N with false by lia. reflexivity.
Qed.
