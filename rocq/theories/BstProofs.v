(** Proofs: BinarySuffixTree does in arrays what SuffixTree does with nodes. *)
From Verif Require Import Base LfsSpec LfsTree Ukk UkkProofs UkkStepProofs UkkLoopProofs Bst.
Local Open Scope nat_scope.

Lemma get_ok (l : list nat) i : i < length l -> nth_error l i = Some (nth i l 0).
Proof. apply nth_error_nth'. Qed.
Lemma put_ok l i v : i < length l -> put l i v = Some (upd l i v).
Proof. intros H. unfold put. replace (i <? length l) with true by lia. auto. Qed.
Lemma nth_upd (l : list nat) i j v : i < length l -> nth j (upd l i v) 0 = if j =? i then v else nth j l 0.
Proof. intros H. destruct (Nat.eqb_spec j i) as [->|Hn]; [apply nth_upd_eq; auto|apply nth_upd_ne; auto]. Qed.

(** ** sibling chains *)
Fixpoint seg (nx : list nat) (c : nat) (l : list nat) (e : nat) : Prop :=
  match l with [] => c = e | y :: l' => c = y /\ seg nx (nth y nx 0) l' e end.
Lemma seg_ext nx nx' : forall l c e, (forall y, In y l -> nth y nx' 0 = nth y nx 0) -> seg nx c l e -> seg nx' c l e.
Proof.
  induction l as [|y l IH]; intros c e H; cbn [seg]; auto. intros [-> H1]. split; auto. rewrite H by (left; auto).
  apply IH; auto. intros z Hz. apply H. right. auto.
Qed.
Lemma seg_app nx : forall l1 l2 c e, seg nx c (l1 ++ l2) e <-> exists m, seg nx c l1 m /\ seg nx m l2 e.
Proof.
  induction l1 as [|y l1 IH]; intros l2 c e; cbn [app seg].
  - split; [intros H; exists c; auto|intros (m & -> & H); auto].
  - rewrite IH. split; [intros [-> (m & H1 & H2)]; exists m; auto|intros (m & [-> H1] & H2); split; auto; exists m; auto].
Qed.
Lemma seg_hd nx c l e : seg nx c l e -> l <> [] -> c = hd 0 l.
Proof. destruct l; [congruence|]. intros [-> _] _. auto. Qed.

Definition idx (x : nat) : nat := if x =? 0 then 0 else x + 1.
Lemma idx_inj x y : idx x = idx y -> x = y.
Proof. unfold idx. destruct (Nat.eqb_spec x 0), (Nat.eqb_spec y 0); lia. Qed.
Lemma idx_pos x : x <> 0 -> idx x = x + 1.
Proof. intros H. unfold idx. destruct (Nat.eqb_spec x 0); lia. Qed.
Lemma idx_zero x : (idx x =? 0) = (x =? 0).
Proof. unfold idx. destruct (Nat.eqb_spec x 0); auto. lia. Qed.
Lemma idx_le x m : x < m -> idx x <= m.
Proof. unfold idx. destruct (Nat.eqb_spec x 0); lia. Qed.
Definition kl (l : list (N * nat)) : list nat := map (fun e => idx (snd e)) l.

(** ** looking for a child *)
Fixpoint before (c : N) (l : list (N * nat)) : option nat :=
  match l with
  | [] => None
  | (k, y) :: l' => if (k =? c)%N then None else match before c l' with Some z => Some z | None => Some y end
  end.
Lemma find_ok text b c : forall l c0 prev fuel, seg (b_next b) c0 (kl l) 0 ->
  (forall k y, In (k, y) l -> y <> 0 /\ idx y < length (b_next b) /\ idx y < length (b_start b) /\ nth_error text (nth (idx y) (b_start b) 0) = Some k) ->
  length l <= fuel ->
  find_child text b c fuel c0 prev = Some (option_map idx (kfind c l), match before c l with Some z => idx z | None => prev end).
Proof.
  induction l as [|[k y] l IH]; intros c0 prev fuel Hs Hl Hf; cbn [kl map snd seg] in Hs.
  - rewrite Hs. destruct fuel; reflexivity.
  - destruct Hs as [-> Hs]. destruct (Hl k y (or_introl eq_refl)) as (Y0 & Y1 & Y2 & Y3). cbn [length] in Hf.
    destruct fuel as [|f]; [lia|]. cbn [find_child kfind before]. rewrite idx_zero. replace (y =? 0) with false by lia.
    rewrite (get_ok _ _ Y2). cbn [obind]. rewrite Y3. cbn [obind]. destruct (N.eqb_spec k c) as [->|Hk]; [reflexivity|].
    rewrite (get_ok _ _ Y1). cbn [obind]. rewrite (IH _ (idx y) f Hs); [|intros k' y' H; apply Hl; right; auto|lia].
    destruct (before c l); auto.
Qed.
Lemma kfind_split c : forall l y, kfind c l = Some y -> exists l1 l2, l = l1 ++ (c, y) :: l2 /\ kfind c l1 = None.
Proof.
  induction l as [|[k z] l IH]; intros y; cbn [kfind]; [discriminate|]. destruct (N.eqb_spec k c) as [->|Hk]; intros H.
  - injection H as ->. exists [], l. auto.
  - destruct (IH y H) as (l1 & l2 & -> & E). exists ((k, z) :: l1), l2. split; auto. cbn [kfind]. apply N.eqb_neq in Hk. rewrite Hk. auto.
Qed.
Lemma kput_split c y s : forall l1 l2, kfind c l1 = None -> kput c s (l1 ++ (c, y) :: l2) = l1 ++ (c, s) :: l2.
Proof.
  induction l1 as [|[k z] l1 IH]; intros l2; cbn [kfind app kput]; [rewrite N.eqb_refl; auto|].
  destruct (N.eqb_spec k c); [discriminate|]. intros H. rewrite IH; auto.
Qed.
Lemma before_split c y : forall l1 l2, kfind c l1 = None -> before c (l1 ++ (c, y) :: l2) = before c l1.
Proof.
  induction l1 as [|[k z] l1 IH]; intros l2; cbn [kfind app before]; [rewrite N.eqb_refl; auto|].
  destruct (N.eqb_spec k c); [discriminate|]. intros H. rewrite IH; auto.
Qed.
Lemma before_last c k z : forall l, kfind c (l ++ [(k, z)]) = None -> before c (l ++ [(k, z)]) = Some z.
Proof.
  induction l as [|[k' z'] l IH]; cbn [app kfind before].
  - destruct (N.eqb_spec k c); [discriminate|auto].
  - destruct (N.eqb_spec k' c); [discriminate|]. intros H. rewrite (IH H). auto.
Qed.

(** ** the arrays represent the nodes *)
Record rel (n : nat) (nodes : list unode) (b : bst) : Prop := {
  r_new : b_new b = length nodes;
  r_l1 : length (b_first b) = 2 * n - 1 /\ length (b_next b) = 2 * n - 1 /\ length (b_slink b) = 2 * n - 1;
  r_l2 : length (b_start b) = 2 * n /\ length (b_end b) = 2 * n /\ length (b_suffix b) = 2 * n;
  r_data : forall x v, nth_error nodes x = Some v -> nth (idx x) (b_start b) 0 = u_start v /\ nth (idx x) (b_end b) 0 = u_end v /\
    nth (idx x) (b_slink b) 0 = idx (u_link v) /\ (forall i, u_leaf v = Some i -> nth (idx x) (b_suffix b) 0 = i);
  r_kids : forall x v, nth_error nodes x = Some v -> seg (b_next b) (nth (idx x) (b_first b) 0) (kl (u_kids v)) 0;
  r_zero : forall i, length nodes < i -> nth i (b_first b) 0 = 0 /\ nth i (b_next b) 0 = 0 /\ nth i (b_slink b) 0 = 0 }.

Section Sim.
  Context (text : list N) (e suf : nat) (nodes : list unode) (p d : nat -> nat).
  Hypothesis I : tinv text e suf nodes p d.
  Hypothesis He : e <= length text.
  Let n := length text.
  Let m := length nodes.
  Context (b : bst).
  Hypothesis R : rel n nodes b.

  Lemma m_pos : 0 < m.
  Proof. destruct (t_root _ _ _ _ _ _ I) as (r & H & _). apply Nat.le_lt_trans with 0; [lia|]. apply nth_error_Some. unfold m in *. congruence. Qed.
  Lemma lt_m x v : nth_error nodes x = Some v -> x < m. Proof. intros H. apply nth_error_Some. congruence. Qed.
  Lemma kids_lt x v k y : nth_error nodes x = Some v -> In (k, y) (u_kids v) -> y <> 0 /\ y < m.
  Proof. intros H1 H2. destruct (t_kid _ _ _ _ _ _ I _ _ _ _ H1 H2) as (_ & A & w & B & _). split; auto. eapply lt_m; eauto. Qed.
  Lemma kl_in x v z : nth_error nodes x = Some v -> In z (kl (u_kids v)) -> exists k y, z = idx y /\ In (k, y) (u_kids v) /\ y <> 0 /\ y < m.
  Proof.
    intros H1 H2. unfold kl in H2. apply in_map_iff in H2. destruct H2 as ([k y] & <- & H2). exists k, y. cbn [snd].
    destruct (kids_lt _ _ _ _ H1 H2). auto.
  Qed.
  Lemma kids_key x v k k' y : nth_error nodes x = Some v -> In (k, y) (u_kids v) -> In (k', y) (u_kids v) -> k = k'.
  Proof.
    intros Hx H1 H2. destruct (t_kid _ _ _ _ _ _ I _ _ _ _ Hx H1) as (_ & _ & w & W1 & _ & W2 & _).
    destruct (t_kid _ _ _ _ _ _ I _ _ _ _ Hx H2) as (_ & _ & w' & W1' & _ & W2' & _). congruence.
  Qed.
  Lemma kl_nodup x v : nth_error nodes x = Some v -> NoDup (kl (u_kids v)).
  Proof.
    intros Hx. pose proof (t_det _ _ _ _ _ _ I _ _ Hx) as D.
    assert (K : forall k k' y, In (k, y) (u_kids v) -> In (k', y) (u_kids v) -> k = k') by (intros; eapply kids_key; eauto).
    revert D K. clear. induction (u_kids v) as [|[k y] l IH]; intros D K; cbn; [constructor|]. cbn in D. inversion D as [|? ? D1 D2]; subst.
    constructor; [|apply IH; auto; intros; eapply K; right; eauto]. intros H. apply in_map_iff in H. destruct H as ([k' y'] & E & H). cbn in E.
    apply idx_inj in E. subst y'. apply D1. apply in_map_iff. exists (k', y). split; auto. cbn. eapply K; [right; eauto|left; auto].
  Qed.
  Lemma kids_len x v : nth_error nodes x = Some v -> length (u_kids v) <= m.
  Proof.
    intros Hx. pose proof (kl_nodup x v Hx) as D. replace (length (u_kids v)) with (length (kl (u_kids v))) by apply map_length.
    rewrite <- (seq_length m 1). apply NoDup_incl_length; auto. intros z Hz. destruct (kl_in x v z Hx Hz) as (k & y & -> & _ & Y0 & Y1).
    (* idx y = y + 1 <= m *)
    rewrite idx_pos by auto. apply in_seq. lia.
  Qed.
  (** different nodes have different children *)
  Lemma kids_apart x v x' v' z : nth_error nodes x = Some v -> nth_error nodes x' = Some v' -> x <> x' -> In z (kl (u_kids v)) -> ~ In z (kl (u_kids v')).
  Proof.
    intros H1 H2 Hne H3 H4. destruct (kl_in _ _ _ H1 H3) as (k & y & -> & A & _). destruct (kl_in _ _ _ H2 H4) as (k' & y' & E & A' & _).
    apply idx_inj in E. subst y'. apply Hne. eapply (t_uniq _ _ _ _ _ _ I); eauto.
  Qed.

  Context (x : nat) (a : unode).
  Hypothesis Hx : nth_error nodes x = Some a.
  Hypothesis Ha : u_leaf a = None.
  (** the nodes so far fit *)
  Hypothesis Hm : m < 2 * n - 1 \/ (m = 1 /\ 2 <= n).

  Lemma fits z : z < m -> idx z < 2 * n - 1.
  Proof. intros Hz. unfold idx. destruct (Nat.eqb_spec z 0); lia. Qed.
  Lemma find_child_ok c : find_child text b c (b_new b) (nth (idx x) (b_first b) 0) (nth (idx x) (b_first b) 0) =
    Some (option_map idx (kfind c (u_kids a)), match before c (u_kids a) with Some z => idx z | None => nth (idx x) (b_first b) 0 end).
  Proof.
    destruct (r_l1 _ _ _ R) as (Q1 & Q2 & Q3). destruct (r_l2 _ _ _ R) as (Q4 & _ & _). apply find_ok.
    - apply (r_kids _ _ _ R x a Hx).
    - intros k y Hin. destruct (kids_lt _ _ _ _ Hx Hin) as [Y0 Y1]. split; auto. pose proof (fits y Y1). split; [lia|]. split; [lia|].
      destruct (t_kid _ _ _ _ _ _ I _ _ _ _ Hx Hin) as (_ & _ & v & V1 & V2 & V3 & V4). destruct (r_data _ _ _ R y v V1) as (-> & _).
      rewrite V3. apply nth_error_nth'. rewrite V2.
      destruct (u_leaf v) eqn:Ev; [lia|]. destruct (t_node _ _ _ _ _ _ I y v Y0 V1) as [_ B]. rewrite Ev in B. lia.
    - rewrite (r_new _ _ _ R). exact (kids_len x a Hx).
  Qed.
  Lemma first_zero : (nth (idx x) (b_first b) 0 =? 0) = match u_kids a with [] => true | _ => false end.
  Proof.
    pose proof (r_kids _ _ _ R x a Hx) as S. destruct (u_kids a) as [|[k y] l] eqn:Ek; cbn [kl map seg snd] in S; [rewrite S; auto|].
    destruct S as [-> _]. rewrite idx_zero. destruct (kids_lt x a k y Hx) as [Y0 _]; [rewrite Ek; left; auto|]. lia.
  Qed.

  (** *** a new leaf *)
  Section Leaf.
    Context (pos : nat) (c : N).
    Hypothesis Hpos : pos < e.
    Hypothesis Hc : c = nth pos text 0%N.
    Hypothesis Hp : pos = suf + d x.
    Hypothesis Hf : kfind c (u_kids a) = None.
    Hypothesis Hm2 : m + 1 < 2 * n.
    Let prev := match before c (u_kids a) with Some z => idx z | None => nth (idx x) (b_first b) 0 end.
    Let kids0 := nth (idx x) (b_first b) 0 =? 0.
    Definition leaf_first := if nth (idx x) (b_first b) 0 =? 0 then upd (b_first b) (idx x) (m + 1) else b_first b.
    Definition leaf_next := if nth (idx x) (b_first b) 0 =? 0 then b_next b else upd (b_next b) (match before c (u_kids a) with Some z => idx z | None => nth (idx x) (b_first b) 0 end) (m + 1).

    Lemma last_kid : kids0 = false -> exists l k w, u_kids a = l ++ [(k, w)] /\ prev = idx w /\ w < m /\ w <> 0.
    Proof.
      unfold kids0. rewrite first_zero. intros H.
      assert (K : u_kids a <> []) by (intros E; rewrite E in H; discriminate). apply exists_last in K. destruct K as (l & [k w] & El).
      exists l, k, w. split; auto. unfold prev. split; [rewrite El in Hf |- *; rewrite before_last; auto|].
      destruct (kids_lt x a k w Hx); [rewrite El; apply in_or_app; right; left; auto|auto].
    Qed.
    Lemma no_kids : kids0 = true -> u_kids a = [].
    Proof. unfold kids0. rewrite first_zero. destruct (u_kids a); [auto|discriminate]. Qed.
    Lemma prev_lt : kids0 = false -> prev < length (b_next b).
    Proof.
      intros H. destruct (last_kid H) as (l & k & w & _ & -> & W & _). destruct (r_l1 _ _ _ R) as (_ & -> & _). apply fits. auto.
    Qed.
    Lemma rel_leaf b' : b_first b' = leaf_first -> b_next b' = leaf_next -> b_start b' = upd (b_start b) (m + 1) pos -> b_end b' = upd (b_end b) (m + 1) 0 ->
      b_slink b' = b_slink b -> b_suffix b' = upd (b_suffix b) (m + 1) suf -> b_new b' = m + 1 -> rel n (leaf_nodes suf nodes x a pos c) b'.
    Proof.
      intros E1 E2 E3 E4 E5 E6 E7. destruct (r_l1 _ _ _ R) as (Q1 & Q2 & Q3). destruct (r_l2 _ _ _ R) as (Q4 & Q5 & Q6).
      pose proof m_pos as M0. pose proof (lt_m x a Hx) as Lx. pose proof (fits x Lx) as Fx. pose proof prev_lt as PL.
      assert (LN : length (leaf_nodes suf nodes x a pos c) = m + 1) by (unfold leaf_nodes; rewrite app_length, upd_length; reflexivity).
      assert (Im : idx m = m + 1) by (apply idx_pos; lia).
      assert (Old : forall z, z < m -> idx z <> m + 1) by (intros z Hz; unfold idx; destruct (Nat.eqb_spec z 0); lia).
      pose proof (r_zero _ _ _ R (m + 1) ltac:(fold m; lia)) as (Z1 & Z2 & Z3).
      assert (Fst : forall z, nth (idx z) (b_first b') 0 = if (idx z =? idx x) && (nth (idx x) (b_first b) 0 =? 0) then m + 1 else nth (idx z) (b_first b) 0).
      { intros z. rewrite E1. unfold leaf_first. destruct (nth (idx x) (b_first b) 0 =? 0); [rewrite nth_upd by lia|]; destruct (idx z =? idx x); reflexivity. }
      constructor.
      - rewrite LN. auto.
      - rewrite E1, E2, E5. unfold leaf_first, leaf_next. destruct (_ =? 0); rewrite ?upd_length; auto.
      - rewrite E3, E4, E6, !upd_length. auto.
      - intros z v' Hz. destruct (leaf_new text e suf nodes d x a pos Hx Hpos c Hc Hp Hf z v' Hz) as [[-> ->]|(Lz & v & V1 & _)].
        + fold m. rewrite Im, E3, E4, E5, E6, !nth_upd, Nat.eqb_refl by lia. cbn [u_start u_end u_link u_leaf]. split; [auto|]. split; [auto|]. split; [exact Z3|]. intros i Ei. congruence.
        + destruct (leaf_old text e suf nodes d x a pos Hx Hpos c Hc Hp Hf z v V1) as (v'' & W1 & W2 & W3 & W4 & W5 & _).
          assert (v'' = v') as -> by congruence. destruct (r_data _ _ _ R z v V1) as (D1 & D2 & D3 & D4). pose proof (Old z Lz) as Oz.
          rewrite E3, E4, E5, E6, !nth_upd by lia. replace (idx z =? m + 1) with false by lia. rewrite W2, W3, W4, W5. auto.
      - intros z v' Hz. rewrite Fst.
        destruct (leaf_new text e suf nodes d x a pos Hx Hpos c Hc Hp Hf z v' Hz) as [[-> ->]|(Lz & v & V1 & _ & _ & _ & V5)].
        + fold m. rewrite Im. replace (m + 1 =? idx x) with false by (symmetry; apply Nat.eqb_neq; intros Q; apply (Old x Lx); auto). exact Z1.
        + rewrite V5. destruct (Nat.eqb_spec z x) as [->|Nx].
          * rewrite Nat.eqb_refl. cbn [andb]. assert (v = a) as -> by congruence. rewrite E2. unfold leaf_next.
            unfold kl at 1. rewrite map_app. cbn [map snd]. fold (kl (u_kids a)). fold m. rewrite Im.
            pose proof (r_kids _ _ _ R x a Hx) as S. fold prev. fold kids0. destruct kids0 eqn:K0.
            -- rewrite (no_kids K0). cbn. auto.
            -- specialize (PL eq_refl). destruct (last_kid K0) as (l & k & w & El & Pw & W1 & W0). pose proof (Old w W1) as Ow.
               pose proof (kl_nodup x a Hx) as ND. rewrite El in S, ND |- *. unfold kl in S, ND |- *. rewrite map_app in S, ND |- *. cbn [map snd] in S, ND |- *.
               rewrite <- app_assoc. cbn [app]. apply seg_app in S. destruct S as (q & S1 & [S2 S3]).
               apply seg_app. exists q. split.
               ++ apply (seg_ext (b_next b)); auto. intros y Hy. apply nth_upd_ne. rewrite Pw. intros <-. apply NoDup_remove_2 in ND. apply ND. apply in_or_app. auto.
               ++ cbn [seg]. split; auto. rewrite !nth_upd by lia. rewrite Pw, Nat.eqb_refl. split; auto.
                  replace (m + 1 =? idx w) with false by lia. auto.
          * replace (idx z =? idx x) with false by (symmetry; apply Nat.eqb_neq; intros Q; apply idx_inj in Q; auto). cbn [andb].
            apply (seg_ext (b_next b)); [|apply (r_kids _ _ _ R); auto]. intros y Hy. rewrite E2. unfold leaf_next. fold prev. fold kids0.
            destruct kids0 eqn:K0; auto. rewrite nth_upd by (apply PL; auto). destruct (Nat.eqb_spec y prev) as [->|]; auto. exfalso.
            apply (kids_apart z v x a prev V1 Hx Nx Hy). destruct (last_kid K0) as (l & k & w & El & Pw & _). rewrite Pw, El.
            unfold kl. rewrite map_app. apply in_or_app. right. left. auto.
      - intros i Hi. rewrite LN in Hi. destruct (r_zero _ _ _ R i ltac:(fold m; lia)) as (Y1 & Y2 & Y3). rewrite E1, E2, E5. unfold leaf_first, leaf_next. fold prev. fold kids0.
        destruct kids0 eqn:K0.
        + rewrite nth_upd by lia. replace (i =? idx x) with false; auto. pose proof (idx_le x m Lx). lia.
        + rewrite nth_upd by (apply PL; auto). split; auto. split; auto. destruct (last_kid K0) as (l & k & w & El & Pw & W1 & _). pose proof (idx_le w m W1).
          replace (i =? prev) with false by lia. auto.
    Qed.
  End Leaf.

  (** *** splitting an edge *)
  Section Split.
    Context (pos y : nat) (v : unode) (L : nat) (ec dch c : N).
    Hypothesis Hpos : pos < e.
    Hypothesis Hk : kfind ec (u_kids a) = Some y.
    Hypothesis Hv : nth_error nodes y = Some v.
    Hypothesis HL : 1 <= L.
    Hypothesis Hp : pos = suf + (d x + L).
    Hypothesis Hc : c = nth pos text 0%N.
    Hypothesis Hd : dch = nth (u_start v + L) text 0%N.
    Hypothesis Hne : dch <> c.
    Hypothesis Hel : match u_leaf v with None => d x + L < d y | Some _ => p y + (d x + L) < e end.
    Hypothesis Hw : eqw text (p y) suf (d x + L).
    Hypothesis Hm2 : m + 2 < 2 * n - 1.
    Let fx := nth (idx x) (b_first b) 0.
    Let prev := match before ec (u_kids a) with Some z => idx z | None => fx end.
    Definition split_first := upd (if nth (idx x) (b_first b) 0 =? idx y then upd (b_first b) (idx x) (m + 1) else b_first b) (m + 1) (idx y).
    Definition split_next1 := if nth (idx x) (b_first b) 0 =? idx y then b_next b
      else upd (b_next b) (match before ec (u_kids a) with Some z => idx z | None => nth (idx x) (b_first b) 0 end) (m + 1).
    Definition split_next2 := upd split_next1 (m + 1) (nth (idx y) split_next1 0).
    Definition split_next := upd split_next2 (idx y) (m + 2).

    (** either y is the first child, or it has one before it *)
    Lemma split_cases : exists l1 l2, u_kids a = l1 ++ (ec, y) :: l2 /\ kfind ec l1 = None /\
      ((l1 = [] /\ (fx =? idx y) = true) \/
       (exists l k w, l1 = l ++ [(k, w)] /\ (fx =? idx y) = false /\ prev = idx w /\ w < m /\ w <> 0 /\ w <> y)).
    Proof.
      destruct (kfind_split _ _ _ Hk) as (l1 & l2 & E & N1). exists l1, l2. split; auto. split; auto.
      pose proof (r_kids _ _ _ R x a Hx) as S. fold fx in S. pose proof (kl_nodup x a Hx) as ND. rewrite E in S, ND. unfold kl in S, ND. rewrite map_app in S, ND. cbn [map snd] in S, ND.
      destruct (list_eq_dec (fun e1 e2 : N * nat => ltac:(decide equality; [apply Nat.eq_dec|apply N.eq_dec])) l1 []) as [->|Nl].
      - left. split; auto. cbn [map app seg] in S. destruct S as [-> _]. apply Nat.eqb_refl.
      - right. apply exists_last in Nl. destruct Nl as (l & [k w] & El). exists l, k, w. split; auto.
        assert (Hin : In (k, w) (u_kids a)) by (rewrite E, El, <- app_assoc; apply in_or_app; right; left; auto).
        destruct (kids_lt x a k w Hx Hin) as [W0 W1].
        assert (Hwy : w <> y).
        { intros ->. apply NoDup_remove_2 in ND. apply ND. apply in_or_app. left. rewrite El, map_app. apply in_or_app. right. left. auto. }
        split; [|split; [|auto]].
        + apply Nat.eqb_neq. intros Q. apply seg_hd in S; [|intros Z; apply app_eq_nil in Z; destruct Z; discriminate].
          apply NoDup_remove_2 in ND. apply ND. apply in_or_app. left. rewrite <- Q, S. destruct l1 as [|e1 l1']; [destruct l; discriminate|]. left. reflexivity.
        + unfold prev. rewrite E, before_split by auto. rewrite El in N1 |- *. rewrite before_last by auto. auto.
    Qed.
    Lemma prev_split_lt : (fx =? idx y) = false -> prev < length (b_next b).
    Proof.
      intros H. destruct split_cases as (l1 & l2 & E & N1 & [[_ Q]|(l & k & w & _ & _ & -> & W & _)]); [congruence|].
      destruct (r_l1 _ _ _ R) as (_ & -> & _). apply fits. auto.
    Qed.
    Lemma next1_len : length split_next1 = length (b_next b).
    Proof. unfold split_next1. destruct (_ =? _); rewrite ?upd_length; auto. Qed.
    Lemma next_at z : nth z split_next 0 = if z =? idx y then m + 2 else if z =? m + 1 then nth (idx y) split_next1 0 else nth z split_next1 0.
    Proof.
      destruct (r_l1 _ _ _ R) as (Q1 & Q2 & Q3). pose proof (fits y (lt_m y v Hv)). pose proof next1_len. unfold split_next, split_next2.
      rewrite !nth_upd; rewrite ?upd_length; try lia.
    Qed.

    Lemma rel_split b' : b_first b' = split_first -> b_next b' = split_next ->
      b_start b' = upd (upd (upd (b_start b) (m + 1) (u_start v)) (idx y) (u_start v + L)) (m + 2) pos ->
      b_end b' = upd (upd (b_end b) (m + 1) (u_start v + L)) (m + 2) 0 ->
      b_slink b' = b_slink b -> b_suffix b' = upd (b_suffix b) (m + 2) suf -> b_new b' = m + 2 -> rel n (split_nodes suf nodes x a pos y v L ec dch c) b'.
    Proof.
      intros E1 E2 E3 E4 E5 E6 E7. destruct (r_l1 _ _ _ R) as (Q1 & Q2 & Q3). destruct (r_l2 _ _ _ R) as (Q4 & Q5 & Q6).
      pose proof m_pos as M0. pose proof (lt_m x a Hx) as Lx. pose proof (fits x Lx) as Fx. pose proof (lt_m y v Hv) as Ly. pose proof (fits y Ly) as Fy.
      assert (Y0 : y <> 0) by (apply (kids_lt x a ec y Hx); apply kfind_in; auto).
      assert (LN : length (split_nodes suf nodes x a pos y v L ec dch c) = m + 2) by (unfold split_nodes; rewrite app_length, !upd_length; reflexivity).
      assert (Im : idx m = m + 1) by (apply idx_pos; lia). assert (Im1 : idx (m + 1) = m + 2) by (rewrite idx_pos by lia; lia).
      assert (Old : forall z, z < m -> idx z <= m) by (intros z Hz; apply idx_le; auto).
      pose proof (r_zero _ _ _ R (m + 1) ltac:(fold m; lia)) as (Z1 & Z2 & Z3). pose proof (r_zero _ _ _ R (m + 2) ltac:(fold m; lia)) as (Z1' & Z2' & Z3').
      pose proof (Old x Lx) as Ox. pose proof (Old y Ly) as Oy.
      assert (FL : length (if nth (idx x) (b_first b) 0 =? idx y then upd (b_first b) (idx x) (m + 1) else b_first b) = 2 * n - 1)
        by (destruct (_ =? _); rewrite ?upd_length; auto).
      assert (Fst : forall z, nth z (b_first b') 0 = if z =? m + 1 then idx y else if (z =? idx x) && (fx =? idx y) then m + 1 else nth z (b_first b) 0).
      { intros z. rewrite E1. unfold split_first. rewrite nth_upd by lia. fold fx. destruct (z =? m + 1); auto.
        destruct (fx =? idx y); [rewrite nth_upd by lia|]; destruct (z =? idx x); reflexivity. }
      assert (Nx1 : forall z, nth z split_next1 0 = if negb (fx =? idx y) && (z =? prev) then m + 1 else nth z (b_next b) 0).
      { intros z. unfold split_next1. fold fx. fold prev. destruct (fx =? idx y) eqn:Ef; cbn [negb andb]; auto. apply nth_upd. apply prev_split_lt. auto. }
      constructor.
      - rewrite LN. auto.
      - rewrite E1, E2, E5. unfold split_first, split_next, split_next2. rewrite !upd_length, next1_len. auto.
      - rewrite E3, E4, E6, !upd_length. auto.
      - intros z w' Hz. destruct (split_new text e suf nodes p d I x a pos Hx Ha Hpos y v L ec dch c Hk Hv HL Hp Hc Hd Hne Hel Hw z w' Hz) as [[-> ->]|[[-> ->]|(Lz & w & W1 & _)]].
        + fold m. rewrite Im, E3, E4, E5, E6, !nth_upd by (rewrite ?upd_length; lia). rewrite Nat.eqb_refl.
          replace (m + 1 =? m + 2) with false by lia. replace (m + 1 =? idx y) with false by lia.
          cbn [u_start u_end u_link u_leaf]. split; [auto|]. split; [auto|]. split; [exact Z3|]. intros i Ei. discriminate.
        + fold m. rewrite Im1, E3, E4, E5, E6, !nth_upd by (rewrite ?upd_length; lia). rewrite Nat.eqb_refl.
          cbn [u_start u_end u_link u_leaf]. split; [auto|]. split; [auto|]. split; [exact Z3'|]. intros i Ei. congruence.
        + destruct (split_old text e suf nodes p d I x a pos Hx Ha Hpos y v L ec dch c Hk Hv HL Hp Hc Hd Hne Hel Hw z w W1) as (w'' & U1 & U2 & U3 & U4 & U5 & _).
          assert (w'' = w') as -> by congruence. destruct (r_data _ _ _ R z w W1) as (D1 & D2 & D3 & D4). fold m in Lz. pose proof (Old z Lz) as Oz.
          rewrite E3, E4, E5, E6, !nth_upd by (rewrite ?upd_length; lia).
          replace (idx z =? m + 1) with false by lia. replace (idx z =? m + 2) with false by lia. rewrite U2, U3, U4, U5.
          split; [|auto]. destruct (Nat.eqb_spec z y) as [->|Ny]; [rewrite Nat.eqb_refl; auto|].
          replace (idx z =? idx y) with false by (symmetry; apply Nat.eqb_neq; intros Q; apply idx_inj in Q; auto). auto.
      - intros z w' Hz. rewrite Fst, E2. destruct split_cases as (l1 & l2 & Ek & Nl & SC).
        pose proof (r_kids _ _ _ R x a Hx) as S. fold fx in S. pose proof (kl_nodup x a Hx) as ND. rewrite Ek in S, ND. unfold kl in S, ND. rewrite map_app in S, ND. cbn [map snd] in S, ND.
        apply seg_app in S. destruct S as (q & S1 & [Sq S2]). subst q.
        assert (NDy : ~ In (idx y) (map (fun e => idx (snd e)) l1 ++ map (fun e => idx (snd e)) l2)) by (apply NoDup_remove_2; auto).
        assert (OldK : forall u w, nth_error nodes u = Some w -> forall q, In q (kl (u_kids w)) -> q <= m /\ q <> 0).
        { intros u w U q Hq. destruct (kl_in _ _ _ U Hq) as (k' & y' & -> & _ & A & B). split; [auto|]. rewrite idx_pos by auto. lia. }
        destruct (split_new text e suf nodes p d I x a pos Hx Ha Hpos y v L ec dch c Hk Hv HL Hp Hc Hd Hne Hel Hw z w' Hz) as [[-> ->]|[[-> ->]|(Lz & w & W1 & _ & _ & _ & W5)]].
        + fold m. rewrite Im, Nat.eqb_refl. cbn [u_kids kl map snd seg]. rewrite Im1. split; auto. rewrite next_at, Nat.eqb_refl. split; auto.
          rewrite next_at. replace (m + 2 =? idx y) with false by lia. replace (m + 2 =? m + 1) with false by lia. rewrite Nx1.
          replace (negb (fx =? idx y) && (m + 2 =? prev)) with false; auto. destruct SC as [[_ ->]|(l & k & w & _ & -> & -> & W & _)]; auto.
          cbn [negb andb]. pose proof (Old w W). symmetry. apply Nat.eqb_neq. lia.
        + fold m. rewrite Im1. replace (m + 2 =? m + 1) with false by lia. replace (m + 2 =? idx x) with false by lia. cbn. auto.
        + fold m in Lz. pose proof (Old z Lz) as Oz. replace (idx z =? m + 1) with false by lia. rewrite W5. destruct (Nat.eqb_spec z x) as [->|Nx].
          * rewrite Nat.eqb_refl. cbn [andb]. assert (w = a) as -> by congruence. rewrite Ek, kput_split by auto. unfold kl. rewrite map_app. cbn [map snd]. fold m. rewrite Im.
            assert (KI : forall q, In q (map (fun e => idx (snd e)) l1) \/ In q (map (fun e => idx (snd e)) l2) -> q <= m /\ q <> idx y).
            { intros q Hq. split.
              - apply (OldK x a Hx). rewrite Ek. unfold kl. rewrite map_app. apply in_or_app. destruct Hq; [left; auto|right; right; auto].
              - intros ->. apply NDy. apply in_or_app. auto. }
            destruct SC as [[-> Ef]|(l & k & w & El & Ef & Pw & W1' & W0 & Wy)]; rewrite Ef in *; cbn [negb andb] in Nx1.
            -- cbn [map app seg]. split; auto. rewrite next_at. replace (m + 1 =? idx y) with false by lia. rewrite Nat.eqb_refl, Nx1.
               apply (seg_ext (b_next b)); auto. intros q Hq. destruct (KI q (or_intror Hq)) as [K1 K2]. rewrite next_at, !Nx1.
               replace (q =? idx y) with false by lia. replace (q =? m + 1) with false by lia. auto.
            -- pose proof (Old w W1') as Ow. assert (Hwy : idx w <> idx y) by (intros Q; apply idx_inj in Q; auto).
               rewrite El in *. rewrite map_app in *. cbn [map snd] in *. rewrite <- app_assoc in ND |- *. cbn [app] in ND |- *.
               apply seg_app in S1. destruct S1 as (q0 & S1 & [Sq S1']). subst q0.
               apply seg_app. exists (idx w). split; [|cbn [seg]; split; auto; split].
               ++ apply (seg_ext (b_next b)); auto. intros q Hq. destruct (KI q) as [K1 K2]; [left; apply in_or_app; auto|]. rewrite next_at, !Nx1.
                  replace (q =? idx y) with false by lia. replace (q =? m + 1) with false by lia.
                  destruct (Nat.eqb_spec q prev) as [->|]; auto. exfalso. rewrite Pw in Hq. apply NoDup_remove_2 in ND. apply ND. apply in_or_app. auto.
               ++ rewrite next_at, !Nx1. replace (idx w =? idx y) with false by lia. replace (idx w =? m + 1) with false by lia. rewrite Pw, Nat.eqb_refl. auto.
               ++ rewrite next_at. replace (m + 1 =? idx y) with false by lia. rewrite Nat.eqb_refl, Nx1. replace (idx y =? prev) with false by lia.
                  apply (seg_ext (b_next b)); auto. intros q Hq. destruct (KI q (or_intror Hq)) as [K1 K2]. rewrite next_at, !Nx1.
                  replace (q =? idx y) with false by lia. replace (q =? m + 1) with false by lia.
                  destruct (Nat.eqb_spec q prev) as [->|]; auto. exfalso. rewrite Pw in Hq. apply NoDup_remove_2 in ND. apply ND. apply in_or_app. right. right. auto.
          * replace (idx z =? idx x) with false by (symmetry; apply Nat.eqb_neq; intros Q; apply idx_inj in Q; auto). cbn [andb].
            apply (seg_ext (b_next b)); [|apply (r_kids _ _ _ R); auto]. intros q Hq. destruct (OldK z w W1 q Hq) as [K1 K2]. rewrite next_at, !Nx1.
            pose proof (kids_apart z w x a q W1 Hx Nx Hq) as KA. rewrite Ek in KA. unfold kl in KA. rewrite map_app in KA. cbn [map snd] in KA.
            destruct (Nat.eqb_spec q (idx y)) as [->|]; [exfalso; apply KA; apply in_or_app; right; left; auto|]. replace (q =? m + 1) with false by lia.
            destruct SC as [[-> Ef]|(l & k & w0 & El & Ef & Pw & _)]; rewrite Ef; cbn [negb andb]; auto.
            destruct (Nat.eqb_spec q prev) as [->|]; auto. exfalso. apply KA. rewrite Pw, El, map_app. apply in_or_app. left. apply in_or_app. right. left. auto.
      - intros i Hi. rewrite LN in Hi. destruct (r_zero _ _ _ R i ltac:(fold m; lia)) as (Y1 & Y2 & Y3). rewrite Fst, E2, E5, next_at, !Nx1.
        replace (i =? m + 1) with false by lia. replace (i =? idx x) with false by lia. replace (i =? idx y) with false by lia. cbn [andb]. split; auto. split; auto.
        destruct split_cases as (l1 & l2 & _ & _ & [[_ ->]|(l & k & w & _ & -> & -> & W & _)]); cbn [negb andb]; auto.
        pose proof (Old w W). replace (i =? idx w) with false by lia. auto.
    Qed.
  End Split.
End Sim.
