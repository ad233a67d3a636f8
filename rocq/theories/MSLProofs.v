(** MaxLCPSuffixList is a max-priority queue. *)
From Coq Require Import Sorting.Sorted.
From Verif Require Import Base LZSS LZSSSpec SASpec Strategies StrategySpec MaxQueues SACompProofs StrategyProofs ArraysProofs.
Local Open Scope nat_scope.

(** ** doubly linked lists *)
Fixpoint dll (nx pv : list nat) (u p : nat) (o : list nat) (e : nat) : Prop :=
  match o with
  | [] => True
  | x :: o' => nth x pv u = p /\ nth x nx u = hd e o' /\ dll nx pv u x o' e
  end.
Lemma last_irr {A} (a : list A) (d d' : A) : a <> [] -> last a d = last a d'.
Proof. induction a as [|x [|y a] IH]; intros H; auto; [congruence|]. simpl in *. apply IH. discriminate. Qed.
Lemma last_cons {A} (x : A) a d : last (x :: a) d = last a x.
Proof. destruct a as [|y a]; auto. change (last (y :: a) d = last (y :: a) x). apply last_irr. discriminate. Qed.
Lemma last_app {A} (a b : list A) d : last (a ++ b) d = last b (last a d).
Proof. revert d. induction a as [|x a IH]; intros d; auto. rewrite <- app_comm_cons, !last_cons. apply IH. Qed.
Lemma dll_app nx pv u a : forall p b e, dll nx pv u p (a ++ b) e <-> dll nx pv u p a (hd e b) /\ dll nx pv u (last a p) b e.
Proof.
  induction a as [|x a IH]; intros p b e; [simpl; tauto|].
  rewrite last_cons. cbn [app dll]. rewrite IH. destruct a; simpl; tauto.
Qed.
Lemma last_in {A} (a : list A) (d : A) : a <> [] -> In (last a d) a.
Proof. induction a as [|x [|y a] IH]; intros H; [congruence|left; auto|]. right. apply IH. discriminate. Qed.
Lemma hd_in {A} (a : list A) (d : A) : a <> [] -> In (hd d a) a.
Proof. destruct a; [congruence|left; auto]. Qed.
Lemma dll_retarget nx pv nx' pv' u a : forall p e e', NoDup a -> (forall x, In x a -> nth x pv' u = nth x pv u) ->
  (forall x, In x a -> x <> last a u -> nth x nx' u = nth x nx u) -> (a <> [] -> nth (last a u) nx' u = e') ->
  dll nx pv u p a e -> dll nx' pv' u p a e'.
Proof.
  induction a as [|x a IH]; intros p e e' ND Hp Hn Hl D; auto.
  destruct D as (D1 & D2 & D3). apply NoDup_cons_iff in ND. destruct ND as [Nx ND]. simpl. split; [rewrite Hp; auto; left; auto|].
  destruct a as [|y a].
  - split; [|exact I]. simpl in *. apply Hl. discriminate.
  - split.
    + rewrite Hn; [auto|left; auto|]. intros E. apply Nx. rewrite last_cons in E. rewrite E. apply last_in. discriminate.
    + apply (IH x e e'); auto.
      * intros z Hz. apply Hp. right. auto.
      * intros z Hz. apply Hn. right. auto.
      * intros _. apply Hl. discriminate.
Qed.
Lemma dll_rehead nx pv nx' pv' u b p p' e : NoDup b -> (forall x, In x b -> nth x nx' u = nth x nx u) ->
  (forall x, In x b -> x <> hd u b -> nth x pv' u = nth x pv u) -> (b <> [] -> nth (hd u b) pv' u = p') ->
  dll nx pv u p b e -> dll nx' pv' u p' b e.
Proof.
  destruct b as [|x b]; intros ND Hn Hp Hh D; auto. destruct D as (D1 & D2 & D3). apply NoDup_cons_iff in ND. destruct ND as [Nx ND].
  simpl in *. split; [apply Hh; discriminate|]. split; [rewrite Hn; auto|].
  assert (F : forall y c, In y c -> In y b \/ True) by auto. clear F.
  apply (dll_retarget nx pv nx' pv' u b x e e); auto.
  - intros y Hy. apply Hp; auto. intros ->. auto.
  - intros Hb. rewrite Hn by (right; apply last_in; auto).
    clear -D3 Hb. revert x D3. induction b as [|y b IH]; intros x D3; [congruence|]. destruct D3 as (_ & D2 & D3).
    destruct b as [|z b]; [exact D2|]. apply (IH ltac:(discriminate) y D3).
Qed.

Lemma nodup_app {A} (a b : list A) : NoDup (a ++ b) -> NoDup a /\ NoDup b /\ forall x, In x a -> In x b -> False.
Proof.
  induction a as [|y a IH]; simpl; intros H; [split; [constructor|split; auto]|].
  apply NoDup_cons_iff in H. destruct H as [N1 N2]. destruct (IH N2) as (A1 & A2 & A3). split; [|split; auto].
  - constructor; auto. intros X. apply N1, in_or_app. auto.
  - intros x [->|X] Y; [apply N1, in_or_app; auto|]. apply (A3 x); auto.
Qed.

(** ** sorted lists *)
Definition desc (key : list nat) (o : list nat) : Prop := StronglySorted (fun a b => nth b key 0 <= nth a key 0) o.
Definition is_key (key : list nat) (v x : nat) : bool := nth x key 0 =? v.
Definition above (key : list nat) (v x : nat) : bool := v <? nth x key 0.
Definition upto (key : list nat) (v x : nat) : bool := nth x key 0 <=? v.
Lemma filter_nil {A} (f : A -> bool) l : (forall x, In x l -> f x = false) -> filter f l = [].
Proof. induction l; intros H; simpl; auto. rewrite H by (left; auto). apply IHl. intros. apply H. right. auto. Qed.
Lemma filter_all {A} (f : A -> bool) l : (forall x, In x l -> f x = true) -> filter f l = l.
Proof. induction l; intros H; simpl; auto. rewrite H by (left; auto). f_equal. apply IHl. intros. apply H. right. auto. Qed.
Lemma filter_ext' {A} (f g : A -> bool) l : (forall x, In x l -> f x = g x) -> filter f l = filter g l.
Proof. apply filter_ext_in. Qed.
Lemma desc_split key o v : desc key o -> o = filter (above key v) o ++ filter (upto key v) o.
Proof.
  unfold above, upto. induction 1 as [|x o H IH F]; simpl; auto. destruct (v <? nth x key 0) eqn:E.
  - replace (nth x key 0 <=? v) with false by lia. simpl. f_equal. auto.
  - replace (nth x key 0 <=? v) with true by lia. rewrite Forall_forall in F.
    rewrite filter_nil by (intros y Hy; specialize (F y Hy); lia). simpl. f_equal.
    symmetry. apply filter_all. intros y Hy. specialize (F y Hy). lia.
Qed.
Lemma desc_hd key o k x l : desc key o -> filter (is_key key (S k)) o = x :: l -> exists l', filter (upto key (S k)) o = x :: l'.
Proof.
  unfold is_key, upto. induction 1 as [|y o H IH F]; simpl; [discriminate|].
  destruct (nth y key 0 =? S k) eqn:E.
  - intros X. injection X as -> _. replace (nth x key 0 <=? S k) with true by lia. eauto.
  - destruct (nth y key 0 <=? S k) eqn:E2; auto. intros X. exfalso. rewrite Forall_forall in F.
    rewrite filter_nil in X; [discriminate|]. intros z Hz. specialize (F z Hz). lia.
Qed.
Lemma desc_app key a b : desc key (a ++ b) <-> desc key a /\ desc key b /\ forall x y, In x a -> In y b -> nth y key 0 <= nth x key 0.
Proof.
  unfold desc. induction a as [|x a IH]; simpl.
  - split; [intros H; repeat split; auto; [constructor|intros ? ? []]|tauto].
  - split.
    + intros H. inversion H as [|? ? H1 H2]; subst. apply IH in H1. destruct H1 as (A & B & C). rewrite Forall_app in H2. destruct H2 as [F1 F2].
      split; [constructor; auto|]. split; auto. intros p y [<-|Hp] Hy; auto. rewrite Forall_forall in F2. auto.
    + intros (A & B & C). inversion A; subst. constructor.
      * apply IH. repeat split; auto.
      * apply Forall_app. split; auto. rewrite Forall_forall. intros y Hy. apply C; auto.
Qed.
Lemma desc_ext key key' o : (forall x, In x o -> nth x key' 0 = nth x key 0) -> desc key o -> desc key' o.
Proof.
  unfold desc. intros H S. induction S as [|x o S IH F]; constructor.
  - apply IH. intros y Hy. apply H. right. auto.
  - rewrite Forall_forall in *. intros y Hy. rewrite !H by (simpl; auto). auto.
Qed.

(** ** the representation *)
Section MSL.
  Variables (n mx : nat).
  Record rep (q : msl) (o : list nat) : Prop := {
    r_key : length (l_key q) = n; r_pv : length (l_prev q) = n; r_nx : length (l_next q) = n;
    r_in : length (l_in q) = n; r_ix : length (l_index q) = mx;
    r_nd : NoDup o; r_lt : forall x, In x o -> x < n;
    r_desc : desc (l_key q) o;
    r_keys : forall x, In x o -> 1 <= nth x (l_key q) 0 <= mx;
    r_first : l_first q = hd n o; r_last : l_last q = last o n;
    r_dll : dll (l_next q) (l_prev q) n n o n;
    r_index : forall k, k < mx -> nth_error (l_index q) k = Some (hd n (filter (is_key (l_key q) (S k)) o));
    r_mem : forall x, x < n -> nth_error (l_in q) x = Some (existsb (Nat.eqb x) o);
    r_size : l_size q = length o }.

  Lemma lookup_ok key o ix : desc key o -> (forall x, In x o -> x < n) -> (forall x, In x o -> 1 <= nth x key 0 <= mx) ->
    (forall k, k < mx -> nth_error ix k = Some (hd n (filter (is_key key (S k)) o))) ->
    forall v, v <= mx -> lookup_index ix n v = Some (hd n (filter (upto key v) o)).
  Proof.
    intros D Lt K I v. induction v as [|v IH]; intros Hv; cbn [lookup_index].
    - rewrite filter_nil; auto. unfold upto. intros x Hx. specialize (K x Hx). lia.
    - rewrite I by lia. cbn [obind]. destruct (filter (is_key key (S v)) o) as [|x l] eqn:E.
      + simpl hd. rewrite Nat.eqb_refl, IH by lia. do 2 f_equal. apply filter_ext'. intros x Hx.
        assert (X : is_key key (S v) x = false).
        { destruct (is_key key (S v) x) eqn:Y; auto. assert (In x (filter (is_key key (S v)) o)) by (apply filter_In; auto). rewrite E in H. destruct H. }
        unfold is_key, upto in *. lia.
      + simpl hd. assert (X : In x o) by (apply (filter_In (is_key key (S v))); rewrite E; left; auto).
        specialize (Lt x X). replace (x =? n) with false by lia.
        destruct (desc_hd key o v x l D E) as [l' ->]. auto.
  Qed.

  Lemma put_some {A} (a : list A) i x : i < length a -> put a i x = Some (upd a i x).
  Proof. intros H. unfold put. replace (i <? length a) with true by lia. auto. Qed.
  Lemma mem_in x o : existsb (Nat.eqb x) o = true <-> In x o.
  Proof. rewrite existsb_exists. split; [intros (y & H & E); apply Nat.eqb_eq in E; subst; auto|intros H; exists x; split; auto; apply Nat.eqb_refl]. Qed.

  Lemma insert_ok q o i : rep q o -> i < n -> ~ In i o -> 1 <= nth i (l_key q) 0 <= mx ->
    exists q', msl_insert q i = Some q' /\ l_key q' = l_key q /\
      rep q' (filter (above (l_key q) (nth i (l_key q) 0)) o ++ i :: filter (upto (l_key q) (nth i (l_key q) 0)) o).
  Proof.
    intros R Hi Ni Hv. set (v := nth i (l_key q) 0) in *.
    set (a := filter (above (l_key q) v) o). set (b := filter (upto (l_key q) v) o).
    pose proof (desc_split _ _ v (r_desc _ _ R)) as Eo. fold a b in Eo.
    destruct R as [R1 R2 R3 R4 R5 R6 R7 R8 R9 R10 R11 R12 R13 R14 R15].
    unfold msl_insert, l_undef. rewrite R1. rewrite (nth_error_nth' (l_key q) 0) by lia. cbn [obind]. fold v.
    rewrite (lookup_ok (l_key q) o); auto; [|lia]. cbn [obind]. fold b.
    rewrite Eo in R12. apply dll_app in R12. destruct R12 as [Da Db]. fold a b in Da, Db.
    assert (ND : NoDup (a ++ b)) by (rewrite <- Eo; auto).
    assert (Ma : forall x, In x a -> In x o /\ v < nth x (l_key q) 0) by (intros x Hx; apply filter_In in Hx; destruct Hx as [H1 H2]; unfold above in H2; split; [auto|lia]).
    assert (Mb : forall x, In x b -> In x o /\ nth x (l_key q) 0 <= v) by (intros x Hx; apply filter_In in Hx; destruct Hx as [H1 H2]; unfold upto in H2; split; [auto|lia]).
    assert (Ia : forall x, In x a -> In x o) by (intros x Hx; apply Ma; auto).
    assert (Ib : forall x, In x b -> In x o) by (intros x Hx; apply Mb; auto).
    assert (NDa : NoDup a) by (apply NoDup_filter; auto). assert (NDb : NoDup b) by (apply NoDup_filter; auto).
    clearbody a b.
    assert (Nei : forall x, In x o -> (x =? i) = false).
    { intros x Hx. apply Nat.eqb_neq. intros ->. auto. }
    assert (Dj : forall x, In x a -> In x b -> False).
    { intros x X Y. apply Ma in X. apply Mb in Y. lia. }
    assert (Lo : last o n = last b (last a n)).
    { rewrite Eo at 1. apply last_app. }
    set (nx1 := if match a with [] => true | _ => false end then upd (l_next q) i (hd n b) else upd (upd (l_next q) i (hd n b)) (last a n) i).
    set (pv1 := if match b with [] => true | _ => false end then upd (l_prev q) i (last a n) else upd (upd (l_prev q) i (last a n)) (hd n b) i).
    assert (La : a <> [] -> last a n < n) by (intros X; apply R7, Ia, last_in; auto).
    assert (Lb : b <> [] -> hd n b < n) by (intros X; apply R7, Ib, hd_in; auto).
    assert (Pnx : forall x, nth x nx1 n = if x =? i then hd n b else if (x =? last a n) && (last a n <? n) then i else nth x (l_next q) n).
    { intros x. unfold nx1. destruct a as [|y a'] eqn:Ea.
      - simpl last. rewrite nth_upd by lia. destruct (x =? i); auto. replace ((x =? n) && (n <? n)) with false by lia. auto.
      - rewrite <- Ea in *. specialize (La ltac:(rewrite Ea; discriminate)). rewrite !nth_upd by (rewrite ?upd_length; lia).
        assert (last a n <> i) by (intros X; apply Ni; rewrite <- X; apply Ia, last_in; rewrite Ea; discriminate).
        replace (last a n <? n) with true by lia. rewrite andb_true_r.
        destruct (x =? last a n) eqn:Z; auto. replace (x =? i) with false by lia. auto. }
    assert (Ppv : forall x, nth x pv1 n = if x =? i then last a n else if (x =? hd n b) && (hd n b <? n) then i else nth x (l_prev q) n).
    { intros x. unfold pv1. destruct b as [|y b'] eqn:Eb.
      - simpl hd. rewrite nth_upd by lia. destruct (x =? i); auto. replace ((x =? n) && (n <? n)) with false by lia. auto.
      - specialize (Lb ltac:(discriminate)). simpl hd in *. rewrite !nth_upd by (rewrite ?upd_length; lia).
        assert (y <> i) by (intros X; apply Ni; rewrite <- X; apply Ib; left; auto).
        replace (y <? n) with true by lia. rewrite andb_true_r. destruct (x =? y) eqn:Z; auto. replace (x =? i) with false by lia. auto. }
    assert (Lnx : length nx1 = n) by (unfold nx1; destruct a; rewrite ?upd_length; auto).
    assert (Lpv : length pv1 = n) by (unfold pv1; destruct b; rewrite ?upd_length; auto).
    assert (D' : dll nx1 pv1 n n (a ++ i :: b) n).
    { apply dll_app. split.
      - apply (dll_retarget (l_next q) (l_prev q) nx1 pv1 n a n (hd n b)); auto.
        + intros x Hx. rewrite Ppv. specialize (Ia x Hx). rewrite (Nei x) by auto.
          destruct ((x =? hd n b) && (hd n b <? n)) eqn:Z; auto. exfalso. destruct b as [|y b']; [simpl in Z; lia|]. simpl in Z.
          assert (x = y) by lia. subst. apply (Dj y); auto. left. auto.
        + intros x Hx Hl. rewrite Pnx. specialize (Ia x Hx). rewrite (Nei x) by auto.
          replace (x =? last a n) with false by lia. auto.
        + intros Ha. rewrite Pnx. specialize (La Ha). assert (last a n <> i) by (intros X; apply Ni; rewrite <- X; apply Ia, last_in; auto).
          replace (last a n =? i) with false by lia. rewrite Nat.eqb_refl. replace (last a n <? n) with true by lia. auto.
      - simpl. rewrite Pnx, Ppv, Nat.eqb_refl. split; auto. split; auto.
        apply (dll_rehead (l_next q) (l_prev q) nx1 pv1 n b (last a n) i); auto.
        + intros x Hx. rewrite Pnx. specialize (Ib x Hx). rewrite (Nei x) by auto.
          destruct ((x =? last a n) && (last a n <? n)) eqn:Z; auto. exfalso. destruct a as [|y a'] eqn:Ea; [simpl in Z; lia|]. rewrite <- Ea in *.
          apply (Dj x); auto. assert (x = last a n) as -> by lia. apply last_in. rewrite Ea. discriminate.
        + intros x Hx Hl. rewrite Ppv. specialize (Ib x Hx). rewrite (Nei x) by auto.
          replace (x =? hd n b) with false by lia. auto.
        + intros Hb. rewrite Ppv. specialize (Lb Hb). assert (hd n b <> i) by (intros X; apply Ni; rewrite <- X; apply Ib, hd_in; auto).
          replace (hd n b =? i) with false by lia. rewrite Nat.eqb_refl. replace (hd n b <? n) with true by lia. auto. }
    (* the assignments of both branches *)
    set (blk := if hd n b =? n then _ else _).
    assert (Eblk : exists fst0, blk = Some (fst0, last (i :: b) n, pv1, nx1) /\ (if fst0 =? n then i else fst0) = hd n (a ++ i :: b)).
    { unfold blk, pv1, nx1. clear blk. destruct b as [|y b'] eqn:Eb.
      - simpl hd. rewrite Nat.eqb_refl. rewrite R11, Lo. simpl last. destruct a as [|z a'] eqn:Ea.
        + simpl last. rewrite Nat.eqb_refl. cbn [obind]. rewrite !put_some by lia. cbn [obind]. exists (l_first q). split; auto.
          rewrite R10, Eo. simpl. rewrite Nat.eqb_refl. auto.
        + rewrite <- Ea in *. specialize (La ltac:(rewrite Ea; discriminate)). replace (last a n =? n) with false by lia.
          rewrite put_some by lia. cbn [obind]. rewrite !put_some by (rewrite ?upd_length; lia). cbn [obind]. exists (l_first q).
          assert (last a n <> i) by (intros X; apply Ni; rewrite <- X; apply Ia, last_in; rewrite Ea; discriminate).
          split.
          * do 2 f_equal. apply nth_error_ext. intros j. rewrite !nth_error_upd by (rewrite ?upd_length; lia). simpl hd.
            destruct (j =? i) eqn:Z1, (j =? last a n) eqn:Z2; auto. lia.
          * rewrite R10, Eo, app_nil_r. rewrite Ea. simpl. assert (z < n) by (apply R7, Ia; rewrite Ea; left; auto). replace (z =? n) with false by lia. auto.
      - specialize (Lb ltac:(discriminate)). simpl hd in *. replace (y =? n) with false by lia.
        rewrite (nth_error_nth' (l_prev q) n) by lia. cbn [obind]. destruct Db as (Db1 & _). rewrite Db1.
        rewrite !put_some by lia. cbn [obind].
        assert (Ll : last (i :: y :: b') n = l_last q).
        { rewrite R11, Lo. change (last (i :: y :: b') n) with (last (y :: b') n). apply last_irr. discriminate. }
        destruct a as [|z a'] eqn:Ea.
        + simpl last. rewrite Nat.eqb_refl. cbn [obind fst snd]. rewrite put_some by (rewrite upd_length; lia). cbn [obind]. exists i.
          split; [rewrite <- Ll; auto|]. simpl. replace (i =? n) with false by lia. auto.
        + rewrite <- Ea in *. specialize (La ltac:(rewrite Ea; discriminate)). replace (last a n =? n) with false by lia.
          rewrite put_some by (rewrite upd_length; lia). cbn [obind fst snd]. rewrite put_some by (rewrite upd_length; lia). cbn [obind].
          exists (l_first q). split; [rewrite <- Ll; auto|]. rewrite R10, Eo. rewrite Ea. simpl.
          assert (z < n) by (apply R7, Ia; rewrite Ea; left; auto). replace (z =? n) with false by lia. auto. }
    destruct Eblk as (first0 & -> & Ef). cbn [obind].
    assert (Es : slot v = Some (v - 1)) by (unfold slot; destruct v; [lia|f_equal; lia]). rewrite Es. cbn [obind].
    rewrite put_some by lia. cbn [obind]. rewrite put_some by lia. cbn [obind]. eexists. split; [reflexivity|].
    cbn [l_key]. split; auto.
    assert (Ine : forall x, In x (a ++ i :: b) <-> x = i \/ In x o).
    { intros x. rewrite Eo, !in_app_iff. simpl. split; [intros [H|[H|H]]; auto|intros [H|[H|H]]; auto]. }
    constructor; cbn [l_key l_first l_last l_prev l_next l_index l_in l_size]; rewrite ?upd_length; auto.
    - apply NoDup_Add with (a := i) (l := a ++ b); [apply Add_app|]. split; auto. rewrite <- Eo. auto.
    - intros x Hx. apply Ine in Hx. destruct Hx as [->|Hx]; auto.
    - pose proof R8 as R8'. rewrite Eo in R8'. apply desc_app in R8'. destruct R8' as (S1 & S2 & S3). apply desc_app. split; auto. split.
      + constructor; auto. rewrite Forall_forall. intros x Hx. apply Mb in Hx. fold v. lia.
      + intros x y Hx [<-|Hy]; auto. apply Ma in Hx. fold v. lia.
    - intros x Hx. apply Ine in Hx. destruct Hx as [->|Hx]; auto.
    - rewrite last_app. apply last_irr. discriminate.
    - intros k Hk. rewrite filter_app. simpl. destruct (Nat.eq_dec k (v - 1)) as [->|Hne].
      + rewrite nth_error_upd_eq by lia. rewrite filter_nil.
        * simpl. unfold is_key at 1. fold v. replace (v =? S (v - 1)) with true by lia. auto.
        * intros x Hx. apply Ma in Hx. unfold is_key in *. lia.
      + rewrite nth_error_upd_ne by lia. rewrite R13 by auto. unfold is_key at 3. fold v. replace (v =? S k) with false by lia.
        rewrite <- filter_app, <- Eo. auto.
    - intros x Hx. rewrite nth_error_upd by lia. rewrite existsb_app. simpl. destruct (x =? i) eqn:Z.
      + rewrite orb_true_r. auto.
      + rewrite R14 by auto. rewrite Eo at 1. rewrite existsb_app. auto.
    - rewrite R15, Eo at 1. rewrite !app_length. simpl. lia.
  Qed.

  Lemma remove_ok q a i b : rep q (a ++ i :: b) -> exists q', msl_remove q i = Some q' /\ l_key q' = l_key q /\ rep q' (a ++ b).
  Proof.
    intros [R1 R2 R3 R4 R5 R6 R7 R8 R9 R10 R11 R12 R13 R14 R15].
    assert (Hi : i < n) by (apply R7, in_elt). pose proof (R9 i (in_elt _ _ _)) as Hv. set (v := nth i (l_key q) 0) in *.
    pose proof (NoDup_remove_1 _ _ _ R6) as ND. pose proof (NoDup_remove_2 _ _ _ R6) as Ni.
    apply dll_app in R12. destruct R12 as [Da (Dp & Dn & Db)]. simpl hd in Da.
    assert (Ia : forall x, In x a -> In x (a ++ i :: b)) by (intros x Hx; apply in_or_app; auto).
    assert (Ib : forall x, In x b -> In x (a ++ i :: b)) by (intros x Hx; apply in_or_app; right; right; auto).
    assert (Iab : forall x, In x (a ++ b) -> In x (a ++ i :: b)) by (intros x Hx; apply in_app_or in Hx; destruct Hx; auto).
    destruct (nodup_app a b ND) as (NDa & NDb & Dj).
    pose proof R8 as R8'. apply desc_app in R8'. destruct R8' as (S1 & S2 & S3). apply StronglySorted_inv in S2. destruct S2 as [S4 S5]. rewrite Forall_forall in S5. fold v in S5.
    unfold msl_remove, l_undef. rewrite R1.
    rewrite (nth_error_nth' (l_prev q) n) by lia. cbn [obind]. rewrite (nth_error_nth' (l_next q) n) by lia. cbn [obind].
    rewrite Dp, Dn.
    set (u := n) in *.
    assert (La : a <> [] -> last a u < u) by (intros X; apply R7, Ia, last_in; auto).
    assert (Lb : b <> [] -> hd u b < u) by (intros X; apply R7, Ib, hd_in; auto).
    set (nx1 := match a with [] => l_next q | _ => upd (l_next q) (last a u) (hd u b) end).
    set (pv1 := match b with [] => l_prev q | _ => upd (l_prev q) (hd u b) (last a u) end).
    assert (Lnx : length nx1 = u) by (unfold nx1; destruct a; rewrite ?upd_length; auto).
    assert (Lpv : length pv1 = u) by (unfold pv1; destruct b; rewrite ?upd_length; auto).
    assert (E1 : (if last a u =? u then Some (hd u b, l_next q) else do nx <- put (l_next q) (last a u) (hd u b); Some (l_first q, nx))
             = Some (hd u (a ++ b), nx1)).
    { unfold nx1. destruct a as [|y a'] eqn:Ea; [simpl last; rewrite Nat.eqb_refl; auto|]. rewrite <- Ea in *.
      specialize (La ltac:(rewrite Ea; discriminate)). replace (last a u =? u) with false by lia. rewrite put_some by lia. cbn [obind].
      do 2 f_equal. rewrite R10. rewrite Ea. auto. }
    rewrite E1. cbn [obind]. clear E1.
    assert (E2 : (if hd u b =? u then Some (last a u, l_prev q) else do pv <- put (l_prev q) (hd u b) (last a u); Some (l_last q, pv))
             = Some (last (a ++ b) u, pv1)).
    { unfold pv1. rewrite R11, last_app, last_cons, last_app. destruct b as [|y b']; [simpl hd; rewrite Nat.eqb_refl; auto|].
      specialize (Lb ltac:(discriminate)). simpl hd in *. replace (y =? u) with false by lia. rewrite put_some by lia. cbn [obind].
      do 2 f_equal. apply last_irr. discriminate. }
    rewrite E2. cbn [obind]. clear E2.
    rewrite (nth_error_nth' (l_key q) 0) by lia. cbn [obind]. fold v.
    assert (Es : slot v = Some (v - 1)) by (unfold slot; destruct v; [lia|f_equal; lia]). rewrite Es. cbn [obind].
    rewrite R13 by lia. cbn [obind]. replace (S (v - 1)) with v by lia.
    assert (E3 : exists ix1, (if hd u (filter (is_key (l_key q) v) (a ++ i :: b)) =? i
       then do same <- (if hd u b =? u then Some false else do w <- nth_error (l_key q) (hd u b); Some (w =? v));
            put (l_index q) (v - 1) (if same : bool then hd u b else u)
       else Some (l_index q)) = Some ix1 /\ length ix1 = length (l_index q) /\
       forall k, k < length (l_index q) -> nth_error ix1 k = Some (hd u (filter (is_key (l_key q) (S k)) (a ++ b)))).
    { assert (Other : forall k, k <> v - 1 -> filter (is_key (l_key q) (S k)) (a ++ i :: b) = filter (is_key (l_key q) (S k)) (a ++ b)).
      { intros k Hk. rewrite !filter_app. simpl. unfold is_key at 2. fold v. replace (v =? S k) with false by lia. auto. }
      rewrite filter_app. simpl filter. replace (is_key (l_key q) v i) with true by (unfold is_key; fold v; lia).
      destruct (filter (is_key (l_key q) v) a) as [|y l] eqn:Ef.
      - simpl hd at 1. rewrite Nat.eqb_refl.
        assert (E4 : exists same, (if hd u b =? u then Some false else do w <- nth_error (l_key q) (hd u b); Some (w =? v)) = Some same /\
          (if same : bool then hd u b else u) = hd u (filter (is_key (l_key q) v) b)).
        { destruct b as [|z b'].
          - simpl hd. rewrite Nat.eqb_refl. exists false. auto.
          - specialize (Lb ltac:(discriminate)). simpl hd in *. replace (z =? u) with false by lia.
            rewrite (nth_error_nth' (l_key q) 0) by lia. cbn [obind]. eexists. split; [reflexivity|].
            simpl. unfold is_key at 1. destruct (nth z (l_key q) 0 =? v) eqn:Z; auto.
            rewrite filter_nil; auto. intros w Hw. apply StronglySorted_inv in S4. destruct S4 as [S6 S7]. rewrite Forall_forall in S7. specialize (S7 w Hw).
            pose proof (S5 z (or_introl eq_refl)). unfold is_key. lia. }
        destruct E4 as (same & -> & E4). cbn [obind]. rewrite put_some by lia. eexists. split; [reflexivity|]. split; [apply upd_length|].
        intros k Hk. destruct (Nat.eq_dec k (v - 1)) as [->|Hne].
        + rewrite nth_error_upd_eq by lia. rewrite E4. replace (S (v - 1)) with v by lia. rewrite filter_app, Ef. auto.
        + rewrite nth_error_upd_ne by lia. rewrite R13 by lia. rewrite Other by auto. auto.
      - simpl hd at 1. assert (Hy : In y a) by (apply (filter_In (is_key (l_key q) v)); rewrite Ef; left; auto).
        replace (y =? i) with false by (symmetry; apply Nat.eqb_neq; intros ->; apply Ni, in_or_app; auto).
        eexists. split; [reflexivity|]. split; auto. intros k Hk. rewrite R13 by lia. destruct (Nat.eq_dec k (v - 1)) as [->|Hne].
        + replace (S (v - 1)) with v by lia. rewrite !filter_app, Ef. auto.
        + rewrite Other by auto. auto. }
    destruct E3 as (ix1 & -> & Lix & Pix). cbn [obind]. rewrite put_some by lia. cbn [obind]. eexists. split; [reflexivity|]. cbn [l_key]. split; auto.
    constructor; cbn [l_key l_first l_last l_prev l_next l_index l_in l_size]; rewrite ?upd_length; auto.
    - lia.
    - apply desc_app. split; auto. split; auto. intros x y Hx Hy. apply S3; auto. right. auto.
    - apply dll_app. split.
      + apply (dll_retarget (l_next q) (l_prev q) nx1 pv1 u a u i); auto.
        * intros x Hx. unfold pv1. destruct b as [|y b']; auto. specialize (Lb ltac:(discriminate)). simpl hd in *. rewrite nth_upd_ne; auto.
          intros Z. apply (Dj x); auto. left. auto.
        * intros x Hx Hl. unfold nx1. destruct a; auto. rewrite nth_upd_ne; auto.
        * intros Ha. unfold nx1. destruct a as [|y a'] eqn:Ea; [congruence|]. rewrite nth_upd_eq; auto. rewrite R3. auto.
      + apply (dll_rehead (l_next q) (l_prev q) nx1 pv1 u b i (last a u)); auto.
        * intros x Hx. unfold nx1. destruct a as [|y a'] eqn:Ea; auto. rewrite <- Ea in *. rewrite nth_upd_ne; auto.
          intros Z. apply (Dj x); auto. rewrite <- Z. apply last_in. rewrite Ea. discriminate.
        * intros x Hx Hl. unfold pv1. destruct b; auto. rewrite nth_upd_ne; auto.
        * intros Hb. unfold pv1. destruct b; [congruence|]. rewrite nth_upd_eq; auto. rewrite R2. auto.
    - intros k Hk. apply Pix. lia.
    - intros x Hx. rewrite nth_error_upd by lia. destruct (x =? i) eqn:Z.
      + apply Nat.eqb_eq in Z. subst x. destruct (existsb (Nat.eqb i) (a ++ b)) eqn:Y; auto. apply mem_in in Y. tauto.
      + rewrite R14 by auto. rewrite !existsb_app. simpl. rewrite Z. auto.
    - rewrite R15, !app_length. simpl. lia.
  Qed.

  Lemma rep_key q o key : rep q o -> length key = n -> (forall x, In x o -> nth x key 0 = nth x (l_key q) 0) ->
    rep (mk_msl key (l_first q) (l_last q) (l_prev q) (l_next q) (l_index q) (l_in q) (l_size q)) o.
  Proof.
    intros [R1 R2 R3 R4 R5 R6 R7 R8 R9 R10 R11 R12 R13 R14 R15] L E. constructor; cbn; auto.
    - eapply desc_ext; eauto.
    - intros x Hx. rewrite E by auto. auto.
    - intros k Hk. rewrite R13 by auto. do 2 f_equal. apply filter_ext'. intros x Hx. unfold is_key. rewrite E by auto. auto.
  Qed.
  Definition msl_ok (q : msl) : Prop := exists o, rep q o.
  Definition msl_mem (q : msl) (x : nat) : bool := nth x (l_in q) false.
  Definition msl_key (q : msl) (x : nat) : nat := nth x (l_key q) 0.
  Lemma msl_mem_in q o x : rep q o -> x < n -> msl_mem q x = existsb (Nat.eqb x) o.
  Proof. intros R H. unfold msl_mem. apply nth_error_nth. apply (r_mem _ _ R). auto. Qed.
  Lemma filter_mem_len o : NoDup o -> (forall x, In x o -> x < n) -> length (filter (fun x => existsb (Nat.eqb x) o) (seq 0 n)) = length o.
  Proof.
    intros ND H. apply Permutation_length. apply NoDup_Permutation; auto.
    - apply NoDup_filter, seq_NoDup.
    - intros x. rewrite filter_In, in_seq, mem_in. split; [tauto|]. intros X. specialize (H x X). split; [lia|auto].
  Qed.
  Lemma msl_queue : max_queue msl_ops n msl_ok msl_mem msl_key.
  Proof.
    split; [|split; [|split; [|split]]].
    - intros q r [o R] Hr. cbn [msl_ops q_has q_key]. split.
      + rewrite (msl_mem_in q o) by auto. apply (r_mem _ _ R). auto.
      + apply nth_error_nth'. rewrite (r_key _ _ R). auto.
    - intros q [o R]. cbn [msl_ops q_size]. rewrite (r_size _ _ R). rewrite <- (filter_mem_len o (r_nd _ _ R) (r_lt _ _ R)).
      f_equal. apply filter_ext'. intros x Hx. apply in_seq in Hx. symmetry. apply msl_mem_in; auto. lia.
    - intros q [o R] Hz. cbn [msl_ops q_size q_top] in *. rewrite (r_size _ _ R) in Hz. rewrite (r_first _ _ R).
      destruct o as [|m o]; [simpl in Hz; lia|]. simpl hd. exists m. split; auto. split; [apply (r_lt _ _ R); left; auto|].
      assert (Hm : m < n) by (apply (r_lt _ _ R); left; auto). split; [rewrite (msl_mem_in q (m :: o)) by auto; simpl; rewrite Nat.eqb_refl; auto|].
      intros r Hr X. rewrite (msl_mem_in q (m :: o)) in X by auto. apply mem_in in X. destruct X as [->|X]; auto.
      pose proof (r_desc _ _ R) as D. inversion D as [|? ? _ F]; subst. rewrite Forall_forall in F. apply F. auto.
    - intros q i [o R] Hi X. rewrite (msl_mem_in q o) in X by auto. apply mem_in in X. destruct (in_split _ _ X) as (a & b & ->).
      destruct (remove_ok q a i b R) as (q' & E & K & R'). exists q'. split; auto. split; [exists (a ++ b); auto|].
      intros r Hr. rewrite (msl_mem_in q' (a ++ b)), (msl_mem_in q (a ++ i :: b)) by auto. unfold msl_key. rewrite K. split; auto.
      rewrite !existsb_app. simpl. pose proof (NoDup_remove_2 _ _ _ (r_nd _ _ R)) as Ni.
      destruct (r =? i) eqn:Z; simpl; [|rewrite andb_true_r; auto]. apply Nat.eqb_eq in Z. subst r. rewrite andb_false_r.
      rewrite <- existsb_app. destruct (existsb (Nat.eqb i) (a ++ b)) eqn:Y; auto. apply mem_in in Y. tauto.
    - intros q i v [o R] Hi X Hv. rewrite (msl_mem_in q o) in X by auto. apply mem_in in X. destruct (in_split _ _ X) as (a & b & ->).
      destruct (remove_ok q a i b R) as (q1 & E & K & R1). pose proof (NoDup_remove_2 _ _ _ (r_nd _ _ R)) as Ni.
      pose proof (r_keys _ _ R i (in_elt _ _ _)) as Kb. pose proof (r_key _ _ R1) as Lk.
      cbn [msl_ops q_decrease]. unfold msl_decrease. rewrite E. cbn [obind]. rewrite put_some by lia. cbn [obind].
      set (key' := upd (l_key q1) i v).
      assert (R2 : rep (mk_msl key' (l_first q1) (l_last q1) (l_prev q1) (l_next q1) (l_index q1) (l_in q1) (l_size q1)) (a ++ b)).
      { apply rep_key; auto; unfold key'; [rewrite upd_length; auto|]. intros x Hx. rewrite nth_upd_ne; auto. intros ->. auto. }
      assert (Kv : nth i key' 0 = v) by (unfold key'; apply nth_upd_eq; lia).
      assert (Hv' : 1 <= nth i key' 0 <= mx) by (rewrite Kv; unfold msl_key in Hv; lia).
      destruct (insert_ok _ _ i R2 Hi Ni Hv') as (q' & E' & K' & R3).
      exists q'. split; auto. cbn [l_key] in *. match type of R3 with rep _ ?o => set (o' := o) in * end.
      split; [exists o'; auto|]. intros r Hr. rewrite (msl_mem_in q' o'), (msl_mem_in q (a ++ i :: b)) by auto. unfold msl_key. rewrite K'.
      split.
      + assert (Hin : In r o' <-> In r (a ++ i :: b)).
        { unfold o'. rewrite in_app_iff. simpl. rewrite !filter_In. unfold above, upto. rewrite (in_app_iff a (i :: b)). simpl. rewrite !in_app_iff.
          destruct (nth i key' 0 <? nth r key' 0) eqn:Z1; destruct (nth r key' 0 <=? nth i key' 0) eqn:Z2; try lia; tauto. }
        rewrite <- !mem_in in Hin. destruct (existsb (Nat.eqb r) o'), (existsb (Nat.eqb r) (a ++ i :: b)); auto; [symmetry|]; apply Hin; auto.
      + unfold key'. rewrite nth_upd by lia. rewrite K. auto.
  Qed.

  (** construction *)
  Lemma msl_fill_ok thr m : forall q o i, 1 <= thr -> 1 <= i -> i + m = n -> rep q o -> (forall x, x < n -> nth x (l_key q) 0 <= mx) ->
    (forall x, In x o <-> 1 <= x < i /\ thr <= nth x (l_key q) 0) ->
    exists q' o', msl_fill q thr i m = Some q' /\ l_key q' = l_key q /\ rep q' o' /\
      forall x, In x o' <-> 1 <= x < n /\ thr <= nth x (l_key q) 0.
  Proof.
    induction m as [|m IH]; intros q o i Ht Hi Hn R Hmx Ho; cbn [msl_fill].
    - exists q, o. split; auto. split; auto. split; auto. intros x. rewrite Ho. replace i with n by lia. tauto.
    - rewrite (nth_error_nth' _ 0) by (rewrite (r_key _ _ R); lia). cbn [obind]. destruct (thr <=? nth i (l_key q) 0) eqn:E.
      + destruct (insert_ok q o i R) as (q1 & -> & K & R1); try lia.
        { rewrite Ho. lia. }
        { split; [lia|]. apply Hmx. lia. }
        cbn [obind]. destruct (IH q1 _ (i + 1) Ht ltac:(lia) ltac:(lia) R1) as (q' & o' & E' & K' & R' & H').
        { rewrite K. auto. }
        { rewrite K. intros x. rewrite in_app_iff. simpl. rewrite !filter_In, Ho. unfold above, upto.
          assert (Nat.ltb (nth i (l_key q) 0) (nth x (l_key q) 0) = true \/ Nat.leb (nth x (l_key q) 0) (nth i (l_key q) 0) = true) by lia.
          destruct (Nat.eq_dec x i) as [->|]; [split; [lia|tauto]|]. split; [intros [X|[X|X]]; lia|]. intros X.
          destruct H; [left|right; right]; split; auto; lia. }
        exists q', o'. rewrite K in H'. rewrite K' . auto.
      + cbn [obind]. apply (IH q o); auto; try lia. intros x. rewrite Ho. split; [lia|]. intros X. destruct (Nat.eq_dec x i) as [->|]; [lia|]. lia.
  Qed.
End MSL.

Lemma rep_empty lcp mx : rep (length lcp) mx (mk_msl lcp (length lcp) (length lcp) (repeat (length lcp) (length lcp))
  (repeat (length lcp) (length lcp)) (repeat (length lcp) mx) (repeat false (length lcp)) 0) [].
Proof.
  constructor; cbn; rewrite ?repeat_length; auto; try (intros; tauto); try constructor.
  - intros k Hk. apply nth_error_repeat. auto.
  - intros x Hx. apply nth_error_repeat. auto.
Qed.
Lemma msl_new_ok lcp thr mx : 1 <= thr -> 1 <= length lcp -> (forall x, x < length lcp -> nth x lcp 0 <= mx) ->
  exists q, msl_new lcp thr mx = Some q /\ msl_ok (length lcp) mx q /\
    forall x, x < length lcp -> msl_key q x = nth x lcp 0 /\ (msl_mem q x = true <-> 1 <= x /\ thr <= nth x lcp 0).
Proof.
  intros Ht Hl Hm. unfold msl_new.
  destruct (msl_fill_ok (length lcp) mx thr (length lcp - 1) _ [] 1 Ht (le_n _) ltac:(lia) (rep_empty lcp mx)) as (q & o & E & K & R & H).
  - exact Hm.
  - cbn [l_key]. intros x. simpl. lia.
  - exists q. split; auto. split; [exists o; auto|]. intros x Hx. cbn [l_key] in *. unfold msl_key. rewrite K. split; auto.
    rewrite (msl_mem_in (length lcp) mx q o x R Hx). rewrite mem_in, H. lia.
Qed.
