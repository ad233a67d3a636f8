(** Proofs: the visit of the arrays yields the tree that the visit of the nodes yields. *)
From Coq Require Import Permutation.
From Verif Require Import Base LfsSpec LfsTree LfsTreeSpec Ukk UkkSpec UkkProofs UkkStepProofs UkkLoopProofs UkkTreeProofs UkkVisitProofs Bst BstProofs BstLoopProofs.
Local Open Scope nat_scope.

Lemma resize_length l k : length (resize l k) = k.
Proof. unfold resize. rewrite app_length, firstn_length, repeat_length. lia. Qed.
Lemma nth_resize l k i : i < k -> nth i (resize l k) 0 = nth i l 0.
Proof.
  intros H. unfold resize. destruct (Nat.lt_ge_cases i (length l)) as [Hi|Hi].
  - rewrite app_nth1 by (rewrite firstn_length; lia). rewrite <- (firstn_skipn k l) at 2. rewrite app_nth1 by (rewrite firstn_length; lia). auto.
  - rewrite (nth_overflow l) by auto. rewrite app_nth2 by (rewrite firstn_length; lia). apply nth_repeat.
Qed.

Definition ent (e : nat * nat * nat) : nat * nat * nat := let '(x, dep, par) := e in (idx x, dep, idx par).
Lemma index_ent x : forall vs, index_of (idx x) (map ent vs) = index_of x vs.
Proof.
  induction vs as [|[[y dy] py] vs IH]; cbn [map ent index_of]; auto. rewrite IH. destruct (Nat.eqb_spec x y) as [->|H]; [rewrite Nat.eqb_refl; auto|].
  replace (idx x =? idx y) with false; auto. symmetry. apply Nat.eqb_neq. intros Q. apply idx_inj in Q. auto.
Qed.

Section Visit.
  Context (text : list N).
  Let n := length text.
  Context (suf : nat) (nodes : list unode) (p d : nat -> nat).
  Hypothesis I : tinv text n suf nodes p d.
  Hypothesis Hs0 : 0 < suf.
  Let m := length nodes.
  Hypothesis Hm : m <= 2 * n.
  Context (b0 : bst).
  Hypothesis R : rel n nodes b0.
  Let b := b_shrink b0.

  Lemma view x v : nth_error nodes x = Some v ->
    nth_error (b_start b) (idx x) = Some (u_start v) /\ nth_error (b_end b) (idx x) = Some (u_end v) /\
    (forall i, u_leaf v = Some i -> nth_error (b_suffix b) (idx x) = Some i) /\
    exists f, nth_error (b_first b) (idx x) = Some f /\ seg (b_next b) f (kl (u_kids v)) 0 /\
    (u_leaf v = None -> u_kids v <> [] /\ f <> 0) /\ (forall i, u_leaf v = Some i -> u_kids v = [] /\ f = 0).
  Proof.
    intros Hx. assert (Lx : x < m) by (apply nth_error_Some; congruence). pose proof (idx_le x m Lx) as Ix.
    pose proof (r_new _ _ _ R) as Bn. fold m in Bn. unfold b, b_shrink. cbn [b_start b_end b_suffix b_first b_next]. rewrite Bn.
    destruct (r_data _ _ _ R x v Hx) as (D1 & D2 & _ & D4). rewrite !get_ok by (rewrite resize_length; lia). rewrite !nth_resize by lia. rewrite D1, D2.
    split; auto. split; auto. split; [intros i Hi; rewrite (D4 i Hi); auto|].
    pose proof (r_kids _ _ _ R x v Hx) as S. exists (nth (idx x) (b_first b0) 0). split; auto. split.
    { apply (seg_ext (b_next b0)); auto. intros y Hy. unfold kl in Hy. apply in_map_iff in Hy. destruct Hy as ([k z] & <- & Hz). cbn [snd].
      destruct (t_kid _ _ _ _ _ _ I _ _ _ _ Hx Hz) as (_ & _ & w & W & _). apply nth_resize.
      assert (z < m) by (apply nth_error_Some; congruence). pose proof (idx_le z m ltac:(auto)). lia. }
    split.
    - intros Hv. assert (K : u_kids v <> []).
      { intros E. destruct (Nat.eq_dec x 0) as [->|X0].
        - destruct (t_leaf _ _ _ _ _ _ I 0 Hs0) as (z & w & Z1 & Z2). pose proof (root_below text _ _ _ _ _ I z w Z1) as Bz.
          inversion Bz as [|? a c y ? B1 B2 B3]; subst; [congruence|]. assert (a = v) as -> by congruence. rewrite E in B2. destruct B2.
        - destruct (t_node _ _ _ _ _ _ I x v X0 Hx) as [_ Q]. rewrite Hv, E in Q. cbn in Q. lia. }
      split; auto. destruct (u_kids v) as [|[k y] l] eqn:E; [congruence|]. cbn [kl map seg snd] in S. destruct S as [-> _].
      destruct (t_kid _ _ _ _ _ _ I x v k y Hx) as (_ & Y0 & _); [rewrite E; left; auto|]. rewrite idx_pos by auto. lia.
    - intros i Hi. destruct (Nat.eq_dec x 0) as [->|X0]; [destruct (t_root _ _ _ _ _ _ I) as (r & R1 & R2); congruence|].
      destruct (t_node _ _ _ _ _ _ I x v X0 Hx) as [_ Q]. rewrite Hi in Q. destruct Q as (_ & _ & Q). split; auto. rewrite Q in S. exact S.
  Qed.
  Lemma next_of y v : nth_error nodes y = Some v -> nth_error (b_next b) (idx y) = Some (nth (idx y) (b_next b) 0).
  Proof.
    intros H. assert (y < m) by (apply nth_error_Some; congruence). pose proof (idx_le y m ltac:(auto)). apply get_ok.
    unfold b, b_shrink. cbn [b_next]. rewrite resize_length, (r_new _ _ _ R). fold m. lia.
  Qed.
  Lemma edge_view y v pos : nth_error nodes y = Some v -> b_edge_length b pos (idx y) = Some (edge_len pos y v).
  Proof.
    intros H. destruct (view y v H) as (V1 & V2 & _). unfold b_edge_length, edge_len. rewrite idx_zero, V1, V2. cbn [obind]. destruct (y =? 0); auto.
  Qed.
  Lemma kids_short x v : nth_error nodes x = Some v -> length (u_kids v) <= 2 * n.
  Proof. intros H. pose proof (kids_len text n suf nodes p d I (le_n _) x v H) as K. fold m in K. lia. Qed.

  Notation ord := (fun (_ : nat) (l : list (N * nat)) => l).
  Lemma visit_sim : forall fuel x a dep par vs F, nth_error nodes x = Some a -> visit ord nodes n fuel x dep par = Some vs -> fuel * (2 * n + 3) <= F ->
    b_visit b (n - 1) F (idx x) dep (idx par) = Some (map ent vs).
  Proof.
    induction fuel as [|f IH]; intros x a dep par vs F Hx Hv HF; [discriminate|]. cbn [visit] in Hv. rewrite Hx in Hv. cbn [obind] in Hv.
    destruct F as [|F]; [lia|]. cbn [b_visit]. destruct (view x a Hx) as (_ & _ & _ & fc & F1 & F2 & F3 & F4). rewrite F1. cbn [obind].
    destruct (u_leaf a) as [i|] eqn:Ha.
    - injection Hv as <-. destruct (F4 i eq_refl) as [_ ->]. reflexivity.
    - destruct (F3 eq_refl) as [_ F0]. replace (fc =? 0) with false by lia.
      match type of Hv with (do r <- ?g _; _) = _ => set (go := g) in Hv end.
      assert (G : forall l c F, (forall k y, In (k, y) l -> y <> 0 /\ exists v, nth_error nodes y = Some v) -> seg (b_next b) c (kl l) 0 -> f * (2 * n + 3) + length l + 1 <= F ->
        forall r, go l = Some r -> b_siblings b (n - 1) F c dep (idx x) = Some (map ent r)).
      { clear HF F1 F2 F3 F4 F0 Hv. induction l as [|[k y] l IHl]; intros c F' Hl Hs HF' r Hr; destruct F' as [|F']; try lia; cbn [kl map seg snd] in Hs; cbn [length] in HF'.
        - subst c. cbn in Hr |- *. injection Hr as <-. reflexivity.
        - destruct Hs as [-> Hs]. destruct (Hl k y (or_introl eq_refl)) as (Y0 & v & V).
          change (go ((k, y) :: l)) with (do v <- nth_error nodes y; do h <- visit ord nodes n f y (dep + edge_len (n - 1) y v) x; do t <- go l; Some (h ++ t)) in Hr.
          rewrite V in Hr. cbn [obind] in Hr. destruct (visit ord nodes n f y _ x) as [h|] eqn:Eh; cbn [obind] in Hr; [|discriminate].
          destruct (go l) as [t|] eqn:Et; cbn [obind] in Hr; [|discriminate]. injection Hr as <-.
          cbn [b_siblings]. rewrite idx_zero.
          replace (y =? 0) with false by lia.
          rewrite (edge_view y v (n - 1) V). cbn [obind]. rewrite (IH y v _ x h F' V Eh) by lia. cbn [obind].
          rewrite (next_of y v V). cbn [obind]. rewrite (IHl _ F' ltac:(intros; eapply Hl; right; eauto) Hs ltac:(lia) t eq_refl). cbn [obind].
          rewrite map_app. reflexivity. }
      destruct (go (u_kids a)) as [r|] eqn:Er; cbn [obind] in Hv; [|discriminate]. injection Hv as <-.
      rewrite (G (u_kids a) fc F) with (r := r); auto.
      + intros k y Hy. destruct (t_kid _ _ _ _ _ _ I _ _ _ _ Hx Hy) as (_ & Y0 & v & V & _). eauto.
      + pose proof (kids_short x a Hx). cbn [Nat.mul] in HF. lia.
  Qed.

  (** the children as the strategies see them *)
  Lemma children_sim vs : forall l c F, (forall k y, In (k, y) l -> y <> 0 /\ exists v, nth_error nodes y = Some v) -> seg (b_next b) c (kl l) 0 -> length l < F ->
    forall r, tree_kids nodes vs l = Some r -> b_children b (map ent vs) F c = Some r.
  Proof.
    induction l as [|[k y] l IH]; intros c F Hl Hs HF r Hr; destruct F as [|F]; try lia; cbn [kl map seg snd] in Hs; cbn [length tree_kids] in HF, Hr.
    - subst c. injection Hr as <-. reflexivity.
    - destruct Hs as [-> Hs]. destruct (Hl k y (or_introl eq_refl)) as (Y0 & v & V). rewrite V in Hr. cbn [obind] in Hr.
      destruct (view y v V) as (_ & _ & V3 & fc & F1 & _ & F3 & F4). cbn [b_children]. rewrite idx_zero, F1. replace (y =? 0) with false by lia. cbn [obind].
      destruct (u_leaf v) as [i|] eqn:Ev.
      + destruct (F4 i eq_refl) as [_ ->]. rewrite (V3 i eq_refl), (next_of y v V). cbn [obind Nat.eqb] in Hr |- *.
        destruct (tree_kids nodes vs l) as [t|] eqn:Et; cbn [obind] in Hr; [|discriminate]. injection Hr as <-.
        rewrite (IH _ F ltac:(intros; eapply Hl; right; eauto) Hs ltac:(lia) t eq_refl). reflexivity.
      + destruct (F3 eq_refl) as [_ F0]. replace (fc =? 0) with false by lia. rewrite index_ent, (next_of y v V).
        destruct (index_of y vs) as [j|]; cbn [obind] in Hr |- *; [|discriminate].
        destruct (tree_kids nodes vs l) as [t|] eqn:Et; cbn [obind] in Hr; [|discriminate]. injection Hr as <-.
        rewrite (IH _ F ltac:(intros; eapply Hl; right; eauto) Hs ltac:(lia) t eq_refl). reflexivity.
  Qed.
  Lemma tnodes_sim all : forall vs T, tree_nodes ord nodes all vs = Some T -> b_tnodes b (map ent all) (map ent vs) = Some T.
  Proof.
    induction vs as [|[[x dep] par] vs IH]; intros T HT; cbn [tree_nodes] in HT; cbn [map ent b_tnodes]; auto.
    destruct (nth_error nodes x) as [a|] eqn:Hx; cbn [obind] in HT; [|discriminate].
    destruct (tree_kids nodes all (u_kids a)) as [cs|] eqn:Ec; cbn [obind] in HT; [|discriminate].
    destruct (index_of par all) as [q|] eqn:Eq; cbn [obind] in HT; [|discriminate].
    destruct (tree_nodes ord nodes all vs) as [r|] eqn:Er; cbn [obind] in HT; [|discriminate]. injection HT as <-.
    destruct (view x a Hx) as (_ & _ & _ & fc & F1 & F2 & _). rewrite F1. cbn [obind].
    rewrite (children_sim all (u_kids a) fc (S (b_new b))) with (r := cs); auto.
    - cbn [obind]. rewrite index_ent, Eq. cbn [obind]. rewrite (IH r eq_refl). reflexivity.
    - intros k y Hy. destruct (t_kid _ _ _ _ _ _ I _ _ _ _ Hx Hy) as (_ & Y0 & v & V & _). eauto.
    - pose proof (kids_len text n suf nodes p d I (le_n _) x a Hx) as K. fold m in K. change (b_new b) with (b_new b0 + 1). rewrite (r_new _ _ _ R). fold m. lia.
  Qed.
End Visit.

(** both classes hand the same tree to the strategies *)
Lemma bst_tree_eq text : 2 <= length text -> exists T, bst_tree text = Some T /\ st_tree (fun _ l => l) text = Some T.
Proof.
  intros Hn. destruct (tree_sim text Hn) as (nodes & suf & p & d & b & E & I & Hs & H0 & Hm & B & R).
  destruct (tree_built text suf nodes p d I Hs H0 (fun _ l => l)) as (vs & T & V & HT & _); [intros; apply Permutation_refl|].
  exists T. unfold bst_tree, st_tree. rewrite E, B. cbn [obind]. rewrite V. cbn [obind]. split; auto.
  destruct (t_root _ _ _ _ _ _ I) as (r & R1 & _).
  pose proof (visit_sim text suf nodes p d I H0 Hm b R _ 0 r 0 0 vs (S (length text) * (2 * length text + 3)) R1 V ltac:(lia)) as W.
  cbn [idx Nat.eqb] in W. change (idx 0) with 0 in W. rewrite W. cbn [obind].
  exact (tnodes_sim text suf nodes p d I H0 Hm b R vs vs T HT).
Qed.
