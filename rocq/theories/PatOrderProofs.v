(** The order of static selections (C51). *)
From Verif Require Import Base AlgParser AlgEval AlgEvalProofs AlgRegProofs.
Local Open Scope N_scope.

Lemma str_lt_irrefl : forall a, str_ltb a a = false.
Proof. induction a as [| x a IH]; [reflexivity |]. cbn. rewrite N.ltb_irrefl, N.eqb_refl, IH. reflexivity. Qed.
Lemma str_lt_trans : forall a b c, str_ltb a b = true -> str_ltb b c = true -> str_ltb a c = true.
Proof.
  induction a as [| x a IH]; intros [| y b] [| z c] H1 H2; try discriminate; [reflexivity |]. cbn in *.
  apply orb_true_iff in H1, H2. apply orb_true_iff. rewrite N.ltb_lt in *. rewrite !andb_true_iff, !N.eqb_eq in *.
  destruct H1 as [H1 | [-> H1]], H2 as [H2 | [-> H2]]; [left; lia | left; lia | left; lia |]. right. split; [reflexivity |]. eapply IH; eauto.
Qed.
Lemma str_lt_total : forall a b, a = b \/ str_ltb a b = true \/ str_ltb b a = true.
Proof.
  induction a as [| x a IH]; intros [| y b]; [auto | right; left; reflexivity | right; right; reflexivity |]. cbn.
  destruct (N.lt_trichotomy x y) as [L | [-> | L]].
  - right. left. apply orb_true_iff. left. apply N.ltb_lt, L.
  - destruct (IH b) as [-> | [H | H]]; [left; reflexivity | right; left | right; right]; rewrite N.eqb_refl, H; apply orb_true_r.
  - right. right. apply orb_true_iff. left. apply N.ltb_lt, L.
Qed.
Lemma str_lt_asym : forall a b, str_ltb a b = true -> str_ltb b a = false.
Proof. intros a b H. destruct (str_ltb b a) eqn:E; [| reflexivity]. assert (Q := str_lt_trans _ _ _ H E). rewrite str_lt_irrefl in Q. discriminate. Qed.
Lemma list_eqb_sym : forall a b, list_eqb a b = list_eqb b a.
Proof. intros a b. destruct (list_eqb b a) eqn:E; [apply list_eqb_eq in E; subst; apply list_eqb_refl |]. apply list_eqb_ne. intros ->. rewrite list_eqb_refl in E. discriminate. Qed.
Lemma pat_eqb_refl : forall p, pat_eqb p p = true. Proof. intros. apply pat_eqb_eq. reflexivity. Qed.
Lemma pat_eqb_sym : forall p q, pat_eqb p q = pat_eqb q p.
Proof.
  intros p q. destruct (pat_eqb q p) eqn:E; [apply pat_eqb_eq in E; subst; apply pat_eqb_refl |].
  destruct (pat_eqb p q) eqn:E'; [| reflexivity]. apply pat_eqb_eq in E'. subst. rewrite pat_eqb_refl in E. discriminate.
Qed.

(** A comparison in the usual form *)
Fixpoint str_cmp (a b : str) : comparison :=
  match a, b with
  | [], [] => Eq | [], _ :: _ => Lt | _ :: _, [] => Gt
  | x :: a, y :: b => match N.compare x y with Eq => str_cmp a b | c => c end
  end.
Definition two (c : comparison) : bool * bool := match c with Lt => (true, false) | Gt => (false, true) | Eq => (false, false) end.
Lemma str_cmp_eq : forall a b, str_cmp a b = Eq <-> a = b.
Proof.
  induction a as [| x a IH]; intros [| y b]; cbn; try (split; congruence). destruct (N.compare_spec x y) as [-> | L | L].
  - rewrite IH. split; [intros ->; reflexivity | intros E; injection E; auto].
  - split; [discriminate |]. intros E. injection E as -> _. lia.
  - split; [discriminate |]. intros E. injection E as -> _. lia.
Qed.
Lemma str_cmp_ltb : forall a b, (str_ltb a b, str_ltb b a) = two (str_cmp a b).
Proof.
  induction a as [| x a IH]; intros [| y b]; [reflexivity | reflexivity | reflexivity |]. cbn. specialize (IH b). destruct (N.compare_spec x y) as [-> | L | L].
  - rewrite N.ltb_irrefl, N.eqb_refl. cbn. exact IH.
  - rewrite (proj2 (N.ltb_lt x y) L). replace (y <? x) with false by (symmetry; apply N.ltb_ge; lia). replace (y =? x) with false by (symmetry; apply N.eqb_neq; lia). reflexivity.
  - rewrite (proj2 (N.ltb_lt y x) L). replace (x <? y) with false by (symmetry; apply N.ltb_ge; lia). replace (x =? y) with false by (symmetry; apply N.eqb_neq; lia). reflexivity.
Qed.
Fixpoint pat_cmp (p q : pat) : comparison :=
  let 'Pat n a := p in let 'Pat m b := q in
  match str_cmp n m with
  | Eq => (fix go (a b : list (str * pat)) : comparison :=
             match a, b with
             | [], [] => Eq | [], _ :: _ => Lt | _ :: _, [] => Gt
             | (k, x) :: a, (l, y) :: b => match str_cmp k l with Eq => match pat_cmp x y with Eq => go a b | c => c end | c => c end
             end) a b
  | c => c
  end.
Definition pargs_cmp := fix go (a b : list (str * pat)) : comparison :=
  match a, b with
  | [], [] => Eq | [], _ :: _ => Lt | _ :: _, [] => Gt
  | (k, x) :: a, (l, y) :: b => match str_cmp k l with Eq => match pat_cmp x y with Eq => go a b | c => c end | c => c end
  end.
Definition pargs_lt2 := fix go (a b : list (str * pat)) : bool * bool :=
  match a, b with
  | [], [] => (false, false)
  | [], _ :: _ => (true, false)
  | _ :: _, [] => (false, true)
  | (k, x) :: a, (l, y) :: b =>
      let '(lt, gt) := if negb (list_eqb k l) then (str_ltb k l, str_ltb l k)
                       else if negb (pat_eqb x y) then pat_lt2 x y else (false, false) in
      if lt then (true, false) else if gt then (false, true) else go a b
  end.
Lemma pat_cmp_unfold : forall n a m b, pat_cmp (Pat n a) (Pat m b) = match str_cmp n m with Eq => pargs_cmp a b | c => c end.
Proof. reflexivity. Qed.
Lemma pat_lt2_unfold : forall n a m b, pat_lt2 (Pat n a) (Pat m b) =
  if negb (list_eqb n m) then (str_ltb n m, str_ltb m n) else if negb (pargs_eqb a b) then pargs_lt2 a b else (false, false).
Proof. reflexivity. Qed.
Lemma pargs_cmp_cons : forall k x a l y b, pargs_cmp ((k, x) :: a) ((l, y) :: b) =
  match str_cmp k l with Eq => match pat_cmp x y with Eq => pargs_cmp a b | c => c end | c => c end.
Proof. reflexivity. Qed.
Lemma pargs_lt2_cons : forall k x a l y b, pargs_lt2 ((k, x) :: a) ((l, y) :: b) =
  let '(lt, gt) := if negb (list_eqb k l) then (str_ltb k l, str_ltb l k) else if negb (pat_eqb x y) then pat_lt2 x y else (false, false) in
  if lt then (true, false) else if gt then (false, true) else pargs_lt2 a b.
Proof. reflexivity. Qed.
Lemma pargs_eqb_eq : forall a b, pargs_eqb a b = true <-> a = b.
Proof.
  induction a as [| [k x] a IH]; intros [| [l y] b]; cbn; try (split; congruence).
  fold pargs_eqb. rewrite !andb_true_iff, list_eqb_eq, pat_eqb_eq, IH. split; [intros [[-> ->] ->]; reflexivity | intros E; injection E as -> -> ->; auto].
Qed.
Lemma pat_cmp_eq : forall p q, pat_cmp p q = Eq <-> p = q.
Proof.
  induction p as [n a IH] using pat_ind2. intros [m b]. rewrite pat_cmp_unfold.
  assert (G : forall b, pargs_cmp a b = Eq <-> a = b).
  { induction a as [| [k x] a IHa]; intros [| [l y] c]; try (cbn; split; congruence). rewrite pargs_cmp_cons.
    assert (KX := IH k x (or_introl eq_refl) y). assert (RX := IHa (fun k q H => IH k q (or_intror H)) c).
    destruct (str_cmp k l) eqn:E; [apply str_cmp_eq in E; subst l | |].
    - destruct (pat_cmp x y) eqn:EX.
      + rewrite RX. destruct KX as [KX _]. rewrite (KX eq_refl). split; [intros ->; reflexivity | intros Q; injection Q; auto].
      + split; [discriminate |]. intros Q. injection Q as -> _. destruct KX as [_ KX]. discriminate (KX eq_refl).
      + split; [discriminate |]. intros Q. injection Q as -> _. destruct KX as [_ KX]. discriminate (KX eq_refl).
    - split; [discriminate |]. intros Q. injection Q as -> _ _. rewrite (proj2 (str_cmp_eq l l) eq_refl) in E. discriminate.
    - split; [discriminate |]. intros Q. injection Q as -> _ _. rewrite (proj2 (str_cmp_eq l l) eq_refl) in E. discriminate. }
  destruct (str_cmp n m) eqn:E; [apply str_cmp_eq in E; subst m | |].
  - rewrite G. split; [intros ->; reflexivity | intros Q; injection Q; auto].
  - split; [discriminate |]. intros Q. injection Q as -> _. rewrite (proj2 (str_cmp_eq m m) eq_refl) in E. discriminate.
  - split; [discriminate |]. intros Q. injection Q as -> _. rewrite (proj2 (str_cmp_eq m m) eq_refl) in E. discriminate.
Qed.
Lemma pat_lt2_cmp : forall p q, pat_lt2 p q = two (pat_cmp p q).
Proof.
  induction p as [n a IH] using pat_ind2. intros [m b]. rewrite pat_cmp_unfold, pat_lt2_unfold.
  assert (G : forall b, pargs_lt2 a b = two (pargs_cmp a b)).
  { induction a as [| [k x] a IHa]; intros [| [l y] c]; try reflexivity. rewrite pargs_cmp_cons, pargs_lt2_cons.
    assert (KX := IH k x (or_introl eq_refl) y). assert (RX := IHa (fun k q H => IH k q (or_intror H)) c). rewrite str_cmp_ltb.
    destruct (list_eqb k l) eqn:E; cbn [negb].
    - apply list_eqb_eq in E. subst l. rewrite (proj2 (str_cmp_eq k k) eq_refl). destruct (pat_eqb x y) eqn:EX; cbn [negb].
      + apply pat_eqb_eq in EX. subst y. rewrite (proj2 (pat_cmp_eq x x) eq_refl). exact RX.
      + rewrite KX. destruct (pat_cmp x y) eqn:EC; [| reflexivity | reflexivity]. exact RX.
    - destruct (str_cmp k l) eqn:EC; [apply str_cmp_eq in EC; subst; rewrite list_eqb_refl in E; discriminate | reflexivity | reflexivity]. }
  rewrite str_cmp_ltb. destruct (list_eqb n m) eqn:E; cbn [negb].
  - apply list_eqb_eq in E. subst m. rewrite (proj2 (str_cmp_eq n n) eq_refl). destruct (pargs_eqb a b) eqn:EB; cbn [negb]; [| apply G].
    apply pargs_eqb_eq in EB. subst b. rewrite <- G. assert (Q := proj2 (pat_cmp_eq (Pat n a) (Pat n a)) eq_refl). rewrite pat_cmp_unfold, (proj2 (str_cmp_eq n n) eq_refl) in Q.
    rewrite G, Q. reflexivity.
  - destruct (str_cmp n m) eqn:EC; [apply str_cmp_eq in EC; subst; rewrite list_eqb_refl in E; discriminate | reflexivity | reflexivity].
Qed.
Lemma str_cmp_sym : forall a b, str_cmp b a = CompOpp (str_cmp a b).
Proof. induction a as [| x a IH]; intros [| y b]; try reflexivity. cbn. rewrite (N.compare_antisym x y). destruct (x ?= y); cbn; auto. Qed.
Lemma pat_cmp_sym : forall p q, pat_cmp q p = CompOpp (pat_cmp p q).
Proof.
  induction p as [n a IH] using pat_ind2. intros [m b]. rewrite !pat_cmp_unfold, (str_cmp_sym n m). destruct (str_cmp n m); try reflexivity. cbn [CompOpp].
  revert b. induction a as [| [k x] a IHa]; intros [| [l y] c]; try reflexivity. rewrite !pargs_cmp_cons, (str_cmp_sym k l). destruct (str_cmp k l); try reflexivity. cbn [CompOpp].
  rewrite (IH k x (or_introl eq_refl) y). destruct (pat_cmp x y); try reflexivity. cbn [CompOpp]. apply IHa. intros k0 q H. eapply IH. right. exact H.
Qed.
Lemma str_cmp_trans : forall a b c, str_cmp a b = Lt -> str_cmp b c = Lt -> str_cmp a c = Lt.
Proof.
  intros a b c H1 H2. assert (E1 := str_cmp_ltb a b). assert (E2 := str_cmp_ltb b c). assert (E3 := str_cmp_ltb a c). rewrite H1 in E1. rewrite H2 in E2. cbn in E1, E2.
  injection E1 as E1 _. injection E2 as E2 _. rewrite (str_lt_trans _ _ _ E1 E2) in E3. destruct (str_cmp a c); cbn in E3; congruence.
Qed.
Lemma pat_cmp_trans : forall p q r, pat_cmp p q = Lt -> pat_cmp q r = Lt -> pat_cmp p r = Lt.
Proof.
  induction p as [n a IH] using pat_ind2. intros [m b] [o c]. rewrite !pat_cmp_unfold.
  assert (G : forall b c, pargs_cmp a b = Lt -> pargs_cmp b c = Lt -> pargs_cmp a c = Lt).
  { clear n m o b c. induction a as [| [k x] a IHa]; intros [| [l y] b] [| [j z] c] H1 H2; try discriminate; try reflexivity. rewrite pargs_cmp_cons in *.
    assert (KX := IH k x (or_introl eq_refl) y z). assert (RX := IHa (fun k q H => IH k q (or_intror H)) b c). clear IH IHa.
    destruct (str_cmp k l) eqn:E1; [apply str_cmp_eq in E1; subst l | | discriminate].
    - destruct (str_cmp k j) eqn:E2; [| reflexivity | discriminate]. destruct (pat_cmp x y) eqn:E3; [apply pat_cmp_eq in E3; subst y | | discriminate].
      + destruct (pat_cmp x z); [apply RX; assumption | reflexivity | discriminate].
      + destruct (pat_cmp y z) eqn:E4; [apply pat_cmp_eq in E4; subst z; rewrite E3; reflexivity | rewrite KX by reflexivity; reflexivity | discriminate].
    - destruct (str_cmp l j) eqn:E2; [apply str_cmp_eq in E2; subst j; rewrite E1; reflexivity | rewrite (str_cmp_trans _ _ _ E1 E2); reflexivity | discriminate]. }
  intros H1 H2. destruct (str_cmp n m) eqn:E1; [apply str_cmp_eq in E1; subst m | | discriminate].
  - destruct (str_cmp n o); [| reflexivity | discriminate]. eapply G; eauto.
  - destruct (str_cmp m o) eqn:E2; [apply str_cmp_eq in E2; subst o; rewrite E1; reflexivity | rewrite (str_cmp_trans _ _ _ E1 E2); reflexivity | discriminate].
Qed.
