(** Proofs about Ukkonen's construction: the result is a suffix tree. *)
From Verif Require Import Base LfsSpec LfsTree Ukk UkkSpec UkkProofs UkkStepProofs UkkLoopProofs.
Local Open Scope nat_scope.

Section Words.
  Context (text : list N).
  Let n := length text.
  Lemma skipn_plus {A} : forall a b (l : list A), skipn a (skipn b l) = skipn (b + a) l.
  Proof. intros a b. revert a. induction b as [|b IH]; intros a l; [reflexivity|]. destruct l; [destruct a; reflexivity|]. apply IH. Qed.
  Lemma piece_app p a b : piece text p a ++ piece text (p + a) b = piece text p (a + b).
  Proof.
    unfold piece. rewrite <- skipn_plus. revert b. generalize (skipn p text). induction a as [|a IH]; intros l b; [reflexivity|].
    destruct l; [cbn; rewrite firstn_nil; auto|]. cbn. rewrite IH. auto.
  Qed.
  Lemma piece_eq a b l : a + l <= n -> b + l <= n -> eqw text a b l -> piece text a l = piece text b l.
  Proof.
    intros Ha Hb H. unfold piece. unfold n in *. apply (nth_ext _ _ 0%N 0%N).
    - rewrite !firstn_length, !skipn_length. lia.
    - intros k Hk. rewrite firstn_length, skipn_length in Hk.
      rewrite <- (firstn_skipn l (skipn a text)), <- (firstn_skipn l (skipn b text)) in *.
      assert (E : forall q, q + l <= length text -> nth k (firstn l (skipn q text)) 0%N = nth (q + k) text 0%N).
      { intros q Hq. transitivity (nth k (skipn q text) 0%N).
        - rewrite <- (firstn_skipn l (skipn q text)) at 2. rewrite app_nth1; auto. rewrite firstn_length, skipn_length. lia.
        - rewrite <- (firstn_skipn q text) at 2. rewrite app_nth2; rewrite firstn_length; [f_equal; lia|lia]. }
      rewrite !firstn_skipn. rewrite !E by auto. apply H. lia.
  Qed.
  Lemma piece_all p : p <= n -> piece text p (n - p) = skipn p text.
  Proof. intros H. unfold piece. apply firstn_all2. rewrite skipn_length. unfold n. lia. Qed.
  Lemma piece_length p l : p + l <= n -> length (piece text p l) = l.
  Proof. intros H. unfold piece. rewrite firstn_length, skipn_length. unfold n in *. lia. Qed.
  Lemma piece_in p l : exists a b, text = a ++ piece text p l ++ b.
  Proof. exists (firstn p text), (skipn l (skipn p text)). unfold piece. rewrite !firstn_skipn. auto. Qed.
  Lemma piece_cons p l : p < n -> piece text p (S l) = nth p text 0%N :: piece text (p + 1) l.
  Proof. intros H. unfold piece. rewrite (skipn_cons_nth text p 0%N) by auto. rewrite Nat.add_1_r. reflexivity. Qed.
End Words.

Section Result.
  Context (text : list N).
  Let n := length text.
  Context (suf : nat) (nodes : list unode) (p d : nat -> nat).
  Hypothesis I : tinv text n suf nodes p d.
  Hypothesis Hsuf : suf <= n.

  (** the length of the word of a node *)
  Definition wlen (y : nat) (v : unode) : nat := match u_leaf v with Some i => n - i | None => d y end.
  Lemma node_bound y v : nth_error nodes y = Some v -> match u_leaf v with Some i => i = p y /\ i < suf | None => y = 0 \/ p y + d y <= n end.
  Proof.
    intros H. destruct (u_leaf v) as [i|] eqn:E.
    - apply (leaf_p text _ _ _ _ _ I). eauto.
    - destruct (Nat.eq_dec y 0); auto. right. destruct (t_node _ _ _ _ _ _ I y v n0 H) as [_ B]. rewrite E in B. lia.
  Qed.
  Lemma word_bound y v : nth_error nodes y = Some v -> p y + wlen y v <= n \/ (y = 0 /\ wlen y v = 0).
  Proof.
    intros H. pose proof (node_bound y v H) as B. unfold wlen. destruct (u_leaf v).
    - destruct B as [-> B]. lia.
    - destruct B as [->|]; auto. right. split; auto. apply I.
  Qed.
  Lemma kid_label x a c y v : nth_error nodes x = Some a -> In (c, y) (u_kids a) -> nth_error nodes y = Some v ->
    y <> 0 /\ u_leaf a = None /\ d x < wlen y v /\ p y + wlen y v <= n /\ label text v = piece text (p y + d x) (wlen y v - d x) /\
    c = nth (p y + d x) text 0%N /\ eqw text (p x) (p y) (d x).
  Proof.
    intros Hx Hin Hy. destruct (t_kid _ _ _ _ _ _ I _ _ _ _ Hx Hin) as (A & B & w & W1 & W2 & W3 & W4).
    assert (w = v) as -> by congruence. destruct (t_node _ _ _ _ _ _ I y v B Hy) as [C1 C2].
    split; auto. split; auto. pose proof (node_bound y v Hy) as D. unfold wlen, label. rewrite W2.
    destruct (u_leaf v) as [i|].
    - destruct C2 as (-> & -> & _). cbn [Nat.eqb]. fold n. split; [lia|]. split; [lia|]. split; [f_equal; lia|]. split; [congruence|].
      exact (t_agree _ _ _ _ _ _ I _ _ _ _ Hx Hin).
    - destruct C2 as (-> & E & _). destruct D as [|D]; [congruence|]. replace (p y + d y =? 0) with false by lia.
      split; [lia|]. split; [lia|]. split; [f_equal; lia|]. split; [congruence|]. exact (t_agree _ _ _ _ _ _ I _ _ _ _ Hx Hin).
  Qed.
  Lemma path_word w y : path text nodes w y -> exists v, nth_error nodes y = Some v /\ w = piece text (p y) (wlen y v).
  Proof.
    induction 1 as [|w x a c y v Hp (b & B1 & B2) Hx Hin Hy].
    - destruct (t_root _ _ _ _ _ _ I) as (r & R1 & R2). exists r. split; auto. unfold wlen. rewrite R2, (t_d0 _ _ _ _ _ _ I). reflexivity.
    - exists v. split; auto. assert (b = a) as -> by congruence.
      destruct (kid_label _ _ _ _ _ Hx Hin Hy) as (K1 & K2 & K3 & K4 & K5 & _ & K6). rewrite B2, K5. unfold wlen at 1. rewrite K2.
      assert (E : piece text (p x) (d x) = piece text (p y) (d x)).
      { destruct (word_bound x a Hx) as [W|[-> W]]; unfold wlen in W; rewrite K2 in W; [apply piece_eq; auto; fold n; lia|rewrite W; reflexivity]. }
      rewrite E, piece_app. f_equal. lia.
  Qed.
  Lemma path_below w x z : path text nodes w x -> below nodes x z -> exists w', path text nodes w' z.
  Proof.
    intros Hp Hb. revert w Hp. induction Hb as [x|x a c y z H1 H2 H3 IH]; intros w Hp; [eauto|].
    destruct (t_kid _ _ _ _ _ _ I _ _ _ _ H1 H2) as (_ & _ & v & V & _). eapply IH. eapply path_step; eauto.
  Qed.
  Lemma word_path y v : nth_error nodes y = Some v -> path text nodes (piece text (p y) (wlen y v)) y.
  Proof.
    intros H. destruct (path_below [] 0 y (path_root _ _) (root_below text _ _ _ _ _ I y v H)) as (w & W).
    destruct (path_word w y W) as (v' & V1 & ->). assert (v' = v) as -> by congruence. auto.
  Qed.
  Lemma leaf_path y v i : nth_error nodes y = Some v -> u_leaf v = Some i -> i < n /\ path text nodes (skipn i text) y.
  Proof.
    intros H E. pose proof (node_bound y v H) as B. rewrite E in B. destruct B as [B1 B2]. split; [lia|].
    rewrite <- piece_all by (fold n; lia). fold n. pose proof (word_path y v H) as W. unfold wlen in W. rewrite E in W. rewrite <- B1 in W. exact W.
  Qed.
  Hypothesis HK : links text nodes p d 0.
  Hypothesis HP : suf < n -> exists i, i < suf /\ eqw text i suf (n - suf).
  Hypothesis HZ : length nodes <= 1 + (2 * suf - 1).
  (** a suffix that has no leaf is the beginning of one that has *)
  Lemma witness : forall i, i < n -> exists j, j < suf /\ j <= i /\ eqw text j i (n - i).
  Proof.
    induction i as [i IH] using lt_wf_ind. intros Hi. destruct (lt_dec i suf) as [L|L]; [exists i; split; [auto|split; [auto|apply eqw_refl]]|].
    destruct (HP ltac:(lia)) as (i0 & J1 & J2). destruct (IH (i0 + (i - suf))) as (j & K1 & K0 & K2); [lia|lia|].
    exists j. split; auto. split; [lia|]. eapply eqw_trans; [eapply eqw_le; [|exact K2]; lia|].
    intros k Hk. replace (i0 + (i - suf) + k) with (i0 + (i - suf + k)) by lia. rewrite J2 by lia. f_equal. lia.
  Qed.
  Lemma words_iff w : (exists w' y, path text nodes (w ++ w') y) <-> (exists l r, text = l ++ w ++ r).
  Proof.
    split.
    - intros (w' & y & Hp). destruct (path_word _ _ Hp) as (v & _ & E). destruct (piece_in text (p y) (wlen y v)) as (l & r & F).
      exists l, (w' ++ r). rewrite F at 1. rewrite <- E. rewrite <- !app_assoc. auto.
    - intros (l & r & E). destruct w as [|c0 w0] eqn:Ew; [exists [], 0; constructor|]. rewrite <- Ew in *.
      assert (Hn : n = length l + length w + length r) by (unfold n; rewrite E, !app_length; lia).
      assert (Hw : 0 < length w) by (rewrite Ew; cbn; lia).
      destruct (witness (length l)) as (j & J1 & J0 & J2); [lia|]. destruct (t_leaf _ _ _ _ _ _ I j J1) as (y & v & V1 & V2).
      destruct (leaf_path y v j V1 V2) as [Lj Pj].
      exists (skipn (j + length w) text), y. replace w with (piece text j (length w)) at 1.
      + unfold piece. rewrite <- skipn_plus, firstn_skipn. auto.
      + transitivity (piece text (length l) (length w)).
        * apply piece_eq; auto; fold n; try lia. eapply eqw_le; [|exact J2]. lia.
        * unfold piece. rewrite E, skipn_app, skipn_all, Nat.sub_diag. cbn [app skipn]. rewrite firstn_app, Nat.sub_diag, firstn_all. cbn. apply app_nil_r.
  Qed.
  Lemma link_path x a c w : nth_error nodes x = Some a -> u_leaf a = None -> path text nodes (c :: w) x -> path text nodes w (u_link a).
  Proof.
    intros Hx Ha Hp. destruct (path_word _ _ Hp) as (v & V1 & V2). assert (v = a) as -> by congruence. unfold wlen in V2. rewrite Ha in V2.
    destruct (Nat.eq_dec x 0) as [->|X0]; [rewrite (t_d0 _ _ _ _ _ _ I) in V2; discriminate|].
    destruct (proj2 HK x a X0 X0 Hx Ha) as ((b & B1 & B2) & U2 & U3).
    pose proof (word_path _ _ B1) as W. unfold wlen in W. rewrite B2 in W.
    replace w with (piece text (p (u_link a)) (d (u_link a))); auto.
    pose proof (node_bound x a Hx) as Bx. rewrite Ha in Bx. destruct Bx as [|Bx]; [congruence|].
    rewrite U2, piece_cons in V2 by (fold n; lia). injection V2 as _ ->.
    destruct (node_bound _ _ B1) as [U0|Bu] || (pose proof (node_bound _ _ B1) as Bu; rewrite B2 in Bu; destruct Bu as [U0|Bu]).
    - rewrite U0, (t_d0 _ _ _ _ _ _ I). reflexivity.
    - apply piece_eq; auto; fold n; lia.
  Qed.
  Lemma result_tree : is_suffix_tree text nodes.
  Proof.
    constructor.
    - intros y v H. eexists. apply (word_path y v H).
    - intros x a c x' a' c' y H1 H2 H3 H4. pose proof (t_uniq _ _ _ _ _ _ I _ _ _ _ _ _ _ H1 H2 H3 H4) as E. split; auto.
      subst x'. assert (a' = a) as -> by congruence. destruct (t_kid _ _ _ _ _ _ I _ _ _ _ H1 H2) as (_ & _ & v & V1 & _ & V2 & _).
      destruct (t_kid _ _ _ _ _ _ I _ _ _ _ H1 H4) as (_ & _ & v' & V1' & _ & V2' & _). congruence.
    - intros x a c H1 H2. destruct (t_kid _ _ _ _ _ _ I _ _ _ _ H1 H2) as (_ & E & _). congruence.
    - intros x a c y H1 H2. destruct (t_kid _ _ _ _ _ _ I _ _ _ _ H1 H2) as (_ & _ & v & V1 & _). exists v.
      destruct (kid_label _ _ _ _ _ H1 H2 V1) as (_ & _ & K3 & K4 & K5 & K6 & _). rewrite K5.
      replace (wlen y v - d x) with (S (wlen y v - d x - 1)) by lia. rewrite piece_cons by (fold n; lia). rewrite <- K6. eauto.
    - exact (t_det _ _ _ _ _ _ I).
    - intros x a H. destruct (Nat.eq_dec x 0) as [->|X0].
      + destruct (t_root _ _ _ _ _ _ I) as (r & R1 & R2). assert (r = a) as <- by congruence. rewrite R2. auto.
      + destruct (t_node _ _ _ _ _ _ I x a X0 H) as [_ B]. destruct (u_leaf a); intuition.
    - exact leaf_path.
    - exact (t_leafu _ _ _ _ _ _ I).
    - exact words_iff.
    - exact link_path.
    - intros Ht. assert (0 < n) by (unfold n; destruct text; [congruence|cbn; lia]). fold n. lia.
  Qed.
  Lemma terminated_suf : terminated text -> suf = n.
  Proof.
    intros (t & c & E & Hc). destruct (Nat.eq_dec suf n) as [|Hs]; auto. exfalso. destruct (HP ltac:(lia)) as (i & J1 & J2).
    assert (Hn : n = length t + 1) by (unfold n; rewrite E, app_length; cbn; lia).
    apply Hc. specialize (J2 (n - suf - 1) ltac:(lia)). rewrite E in J2. rewrite app_nth1 in J2 by lia.
    rewrite app_nth2 in J2 by lia. replace (suf + (n - suf - 1) - length t) with 0 in J2 by lia. cbn in J2. rewrite <- J2. apply nth_In. lia.
  Qed.
  Lemma all_leaves_ok : terminated text -> all_leaves text nodes.
  Proof. intros H i Hi. apply (t_leaf _ _ _ _ _ _ I). rewrite terminated_suf; auto. Qed.
End Result.

(** ** the visit of the inner nodes *)
Section Visited.
  Context (text : list N).
  Let n := length text.
  Context (suf : nat) (nodes : list unode) (p d : nat -> nat).
  Hypothesis I : tinv text n suf nodes p d.
  Hypothesis Hsuf : suf <= n.
  Context (ord : nat -> list (N * nat) -> list (N * nat)).
  Hypothesis Hord : forall x l e, In e (ord x l) <-> In e l.
  Hypothesis Hordn : forall x l, NoDup l -> NoDup (ord x l).
  Notation inner := (inner nodes).
  Definition vnode (t : nat * nat * nat) : nat := fst (fst t).

  Lemma depth_lt x a : nth_error nodes x = Some a -> u_leaf a = None -> u_kids a <> [] -> d x < n.
  Proof.
    intros Hx Ha Hk. destruct (u_kids a) as [|[c y] l] eqn:E; [congruence|].
    assert (Hin : In (c, y) (u_kids a)) by (rewrite E; left; auto).
    destruct (t_kid _ _ _ _ _ _ I _ _ _ _ Hx Hin) as (_ & Y0 & v & V1 & _).
    destruct (kid_label text suf nodes p d I Hsuf _ _ _ _ _ Hx Hin V1) as (_ & _ & K3 & K4 & _). fold n in K4. lia.
  Qed.
  Lemma below_depth x z : below nodes x z -> inner x -> inner z -> x = z \/ d x < d z.
  Proof.
    induction 1 as [x|x a c y z H1 H2 H3 IH]; intros Hx Hz; [auto|]. right.
    destruct (t_kid _ _ _ _ _ _ I _ _ _ _ H1 H2) as (_ & _ & v & V1 & _ & _ & V4).
    destruct (u_leaf v) as [i|] eqn:E.
    - exfalso. pose proof (below_leaf text _ _ _ _ _ I y i z (ex_intro _ v (conj V1 E)) H3) as ->. destruct Hz as (b & B1 & B2). congruence.
    - destruct IH as [->|IH]; auto; [exists v; auto|lia].
  Qed.
  (** the nodes above a node form a chain *)
  Lemma below_last x z : below nodes x z -> x = z \/ exists w b c, below nodes x w /\ nth_error nodes w = Some b /\ In (c, z) (u_kids b).
  Proof.
    induction 1 as [x|x a c y z H1 H2 H3 IH]; auto. right. destruct IH as [->|(w & b & k & W1 & W2 & W3)].
    - exists x, a, c. split; [constructor|auto].
    - exists w, b, k. split; auto. eapply b_kid; eauto.
  Qed.
  Lemma chain : forall m x y z, d z <= m -> inner z -> below nodes x z -> below nodes y z -> below nodes x y \/ below nodes y x.
  Proof.
    induction m as [m IH] using lt_wf_ind. intros x y z Hm Hz Hx Hy.
    destruct (below_last _ _ Hx) as [->|(w & b & c & W1 & W2 & W3)]; auto.
    destruct (below_last _ _ Hy) as [->|(w' & b' & c' & W1' & W2' & W3')]; auto.
    pose proof (t_uniq _ _ _ _ _ _ I _ _ _ _ _ _ _ W2 W3 W2' W3') as <-.
    destruct (t_kid _ _ _ _ _ _ I _ _ _ _ W2 W3) as (B1 & _ & v & V1 & _ & _ & V4).
    destruct Hz as (v' & Z1 & Z2). assert (v' = v) as -> by congruence. rewrite Z2 in V4.
    apply (IH (d w)) with (z := w); auto; [lia|exists b; auto].
  Qed.
  (** children have no node in common below them *)
  Lemma kids_disjoint x a c y c' y' z : nth_error nodes x = Some a -> In (c, y) (u_kids a) -> In (c', y') (u_kids a) -> inner y -> inner y' -> inner z ->
    below nodes y z -> below nodes y' z -> y = y'.
  Proof.
    intros Hx H1 H2 Iy Iy' Iz B1 B2.
    assert (Q : forall c y c' y', In (c, y) (u_kids a) -> In (c', y') (u_kids a) -> inner y -> inner y' -> below nodes y y' -> y = y').
    { clear c y c' y' H1 H2 Iy Iy' B1 B2. intros c y c' y' H1 H2 Iy Iy' B. destruct (below_last _ _ B) as [|(w & b & k & W1 & W2 & W3)]; auto. exfalso.
      pose proof (t_uniq _ _ _ _ _ _ I _ _ _ _ _ _ _ Hx H2 W2 W3) as <-.
      destruct (t_kid _ _ _ _ _ _ I _ _ _ _ Hx H1) as (Ha & _ & v & V1 & _ & _ & V4). destruct Iy as (v' & Z1 & Z2). assert (v' = v) as -> by congruence. rewrite Z2 in V4.
      destruct (below_depth y x W1) as [->|]; [exists v; auto|exists a; auto|lia|lia]. }
    destruct (chain (d z) y y' z (le_n _) Iz B1 B2) as [B|B]; [eapply Q; eauto|symmetry; eapply Q; eauto].
  Qed.

  Definition entry_ok (x par : nat) (t : nat * nat * nat) : Prop :=
    let '(z, dz, pz) := t in inner z /\ dz = d z /\ below nodes x z /\ ((z = x /\ pz = par) \/ (z <> x /\ exists b c, nth_error nodes pz = Some b /\ In (c, z) (u_kids b))).
  Definition kid_entries (x : nat) (l : list (N * nat)) (r : list (nat * nat * nat)) : Prop :=
    (forall t, In t r -> exists c y, In (c, y) l /\ inner y /\ entry_ok y x t) /\ (forall c y z, In (c, y) l -> inner y -> inner z -> below nodes y z -> In z (map vnode r)) /\ NoDup (map vnode r).

  Lemma visit_ok : forall fuel x par dep, match nth_error nodes x with
      | Some a => match u_leaf a with Some _ => 0 < fuel -> visit ord nodes n fuel x dep par = Some []
                  | None => dep = d x -> n < fuel + d x -> (x <> 0 -> 0 < d x) -> exists vs, visit ord nodes n fuel x dep par = Some vs /\ (forall t, In t vs -> entry_ok x par t) /\ (forall z, inner z -> below nodes x z -> In z (map vnode vs)) /\ NoDup (map vnode vs) /\ (exists r, vs = (x, d x, par) :: r) end
      | None => True end.
  Proof.
    induction fuel as [|f IH]; intros x par dep; destruct (nth_error nodes x) as [a|] eqn:Hx; auto; destruct (u_leaf a) as [i|] eqn:Ha; try lia.
    - intros _ H _. exfalso. destruct (u_kids a) as [|k l] eqn:E; [|pose proof (depth_lt x a Hx Ha ltac:(congruence)); lia].
      destruct (Nat.eq_dec x 0) as [->|X0]; [rewrite (t_d0 _ _ _ _ _ _ I) in H; lia|].
      destruct (t_node _ _ _ _ _ _ I x a X0 Hx) as [_ B]. rewrite Ha, E in B. cbn in B. lia.
    - intros _. cbn [visit]. rewrite Hx. cbn [obind]. rewrite Ha. auto.
    - intros -> Hf Hx0. cbn [visit]. rewrite Hx. cbn [obind]. rewrite Ha.
      assert (G : forall l, (forall e, In e l -> In e (u_kids a)) -> NoDup (map snd l) ->
        exists r, (fix go (l : list (N * nat)) : option (list (nat * nat * nat)) :=
                   match l with
                   | [] => Some []
                   | (_, y) :: l' =>
                       do v <- nth_error nodes y;
                       do h <- visit ord nodes n f y (d x + edge_len (n - 1) y v) x;
                       do t <- go l'; Some (h ++ t)
                   end) l = Some r /\ kid_entries x l r).
      { induction l as [|[c y] l IHl]; intros Hl Hd.
        - exists []. split; auto. split; [intros t []|]. split; [intros c y z []|constructor].
        - inversion Hd as [|? ? D1 D2]; subst. destruct IHl as (r & R1 & R2 & R3 & R4); [intros e He; apply Hl; right; auto|auto|].
          assert (Hin : In (c, y) (u_kids a)) by (apply Hl; left; auto).
          destruct (t_kid _ _ _ _ _ _ I _ _ _ _ Hx Hin) as (_ & Y0 & v & V1 & V2 & _ & V4). rewrite V1. cbn [obind].
          pose proof (t_node _ _ _ _ _ _ I y v Y0 V1) as [_ V5].
          pose proof (IH y x (d x + edge_len (n - 1) y v)) as V. rewrite V1 in V. rewrite R1.
          pose proof (depth_lt x a Hx Ha ltac:(intros E; rewrite E in Hin; destruct Hin)) as Dx.
          destruct (u_leaf v) as [i|] eqn:Ev.
          + rewrite V by lia. cbn [obind app]. exists r. split; auto. split; [|split; auto].
            * intros t Ht. destruct (R2 t Ht) as (c' & y' & A & B). exists c', y'. split; auto. right. auto.
            * intros c' y' z [E|Hin'] Iy; [|eapply R3; eauto]. injection E as <- <-. destruct Iy as (v' & Z1 & Z2). congruence.
          + destruct V as (vs & E1 & E2 & E3 & E4 & _).
            { unfold edge_len. replace (y =? 0) with false by lia. destruct V5 as (-> & _). rewrite V2. replace (p y + d y =? 0) with false by lia. lia. }
            { lia. } { lia. }
            rewrite E1. cbn [obind]. exists (vs ++ r). split; auto. assert (Iy : inner y) by (exists v; auto). split; [|split].
            * intros t Ht. apply in_app_iff in Ht. destruct Ht as [Ht|Ht].
              -- exists c, y. split; [left; auto|]. split; auto.
              -- destruct (R2 t Ht) as (c' & y' & A & B). exists c', y'. split; auto. right. auto.
            * intros c' y' z [E|Hin'] Iy' Iz Bz; rewrite map_app; apply in_or_app; [|right; eapply R3; eauto].
              injection E as <- <-. left. auto.
            * rewrite map_app. apply (proj2 (NoDup_count_occ' Nat.eq_dec _)). intros z Hz. rewrite count_occ_app.
              rewrite (NoDup_count_occ' Nat.eq_dec) in R4, E4.
              assert (Dj : In z (map vnode vs) -> In z (map vnode r) -> False).
              { intros H1 H2. apply in_map_iff in H1. destruct H1 as ([[z1 dz1] pz1] & Ez1 & H1). cbn in Ez1. subst z1.
                apply in_map_iff in H2. destruct H2 as ([[z2 dz2] pz2] & Ez2 & H2). cbn in Ez2. subst z2.
                destruct (E2 _ H1) as (I1 & _ & B1 & _). destruct (R2 _ H2) as (c' & y' & Hin' & Iy' & (I2 & _ & B2 & _)).
                apply D1. apply in_map_iff. exists (c', y'). split; [|auto]. cbn.
                symmetry. eapply (kids_disjoint x a c y c' y' z); eauto. apply Hl. right. auto. }
              destruct (in_dec Nat.eq_dec z (map vnode vs)) as [H1|H1], (in_dec Nat.eq_dec z (map vnode r)) as [H2|H2].
              -- exfalso. auto.
              -- rewrite (E4 z H1), (proj1 (count_occ_not_In Nat.eq_dec _ _) H2). auto.
              -- rewrite (R4 z H2), (proj1 (count_occ_not_In Nat.eq_dec _ _) H1). auto.
              -- exfalso. apply in_app_iff in Hz. rewrite map_app in Hz || idtac. tauto. }
      destruct (G (ord x (u_kids a))) as (r & R1 & R2 & R3 & R4).
      + intros e He. apply (Hord x). auto.
      + (* distinct children *)
        assert (ND : NoDup (ord x (u_kids a))).
        { apply Hordn. pose proof (t_det _ _ _ _ _ _ I _ _ Hx) as D. clear - D. induction (u_kids a) as [|[k y] l IHl]; constructor.
          - intros Hin. cbn in D. inversion D as [|? ? D1 D2]. apply D1. apply in_map_iff. exists (k, y). auto.
          - cbn in D. inversion D. auto. }
        assert (Hin : forall e, In e (ord x (u_kids a)) -> In e (u_kids a)) by (intros e; apply Hord).
        revert ND Hin. generalize (ord x (u_kids a)). induction l as [|[k y] l IHl]; intros ND Hin; constructor; inversion ND as [|? ? N1 N2]; subst.
        * intros Hy. apply in_map_iff in Hy. destruct Hy as ([k' y'] & E & Hy). cbn in E. subst y'. apply N1.
          assert (k' = k); [|subst; auto].
          destruct (t_kid _ _ _ _ _ _ I _ _ _ _ Hx (Hin _ (or_introl eq_refl))) as (_ & _ & v & V1 & _ & V2 & _).
          destruct (t_kid _ _ _ _ _ _ I _ _ _ _ Hx (Hin _ (or_intror Hy))) as (_ & _ & v' & V1' & _ & V2' & _). congruence.
        * apply IHl; auto. intros e He. apply Hin. right. auto.
      + rewrite R1. cbn [obind]. exists ((x, d x, par) :: r). split; auto.
        assert (Ix : inner x) by (exists a; auto).
        assert (Q : forall t, In t r -> entry_ok x par t /\ vnode t <> x).
        { intros [[z dz] pz] Ht. destruct (R2 _ Ht) as (c & y & Hin & Iy & (J1 & J2 & J3 & J4)). apply Hord in Hin.
          assert (Hzx : z <> x).
          { intros ->. destruct (t_kid _ _ _ _ _ _ I _ _ _ _ Hx Hin) as (_ & _ & v & V1 & _ & _ & V4).
            destruct Iy as (v' & Z1 & Z2). assert (v' = v) as -> by congruence. rewrite Z2 in V4.
            destruct (below_depth y x J3) as [->|]; [exists v; auto|auto|lia|lia]. }
          split; [|auto]. split; auto. split; auto. split; [eapply b_kid; eauto|]. right. split; auto.
          destruct J4 as [[-> ->]|[_ J4]]; [|auto]. exists a, c. auto. }
        split; [intros t [<-|Ht]; [|apply Q; auto]; split; auto; split; auto; split; [constructor|auto]|].
        split; [|split].
        * intros z Iz Bz. cbn [map vnode fst]. destruct Bz as [|x b c y z B1 B2 B3]; [left; auto|]. right. assert (b = a) as -> by congruence.
          destruct (t_kid _ _ _ _ _ _ I _ _ _ _ Hx B2) as (_ & _ & v & V1 & _).
          destruct (u_leaf v) as [i|] eqn:Ev.
          -- exfalso. pose proof (below_leaf text _ _ _ _ _ I y i z (ex_intro _ v (conj V1 Ev)) B3) as ->. destruct Iz as (b & Z1 & Z2). congruence.
          -- apply (R3 c y z); auto; [apply Hord; auto|exists v; auto].
        * cbn [map vnode fst]. constructor; auto. intros Hin. apply in_map_iff in Hin. destruct Hin as (t & Et & Ht). apply (proj2 (Q t Ht)). auto.
        * eauto.
  Qed.
End Visited.
