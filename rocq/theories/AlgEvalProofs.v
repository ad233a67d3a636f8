(** Evaluation of algorithm strings: it computes [means] (C51). *)
From Verif Require Import Base AlgParser AlgEval AlgEvalSpec.
Local Open Scope N_scope.

Lemma list_eqb_eq : forall a b, list_eqb a b = true <-> a = b.
Proof. intros a b. unfold list_eqb. destruct (list_eq_dec N.eq_dec a b); split; congruence. Qed.
Lemma list_eqb_refl : forall a, list_eqb a a = true.
Proof. intros a. apply list_eqb_eq. reflexivity. Qed.
Lemma list_eqb_ne : forall a b, a <> b -> list_eqb a b = false.
Proof. intros a b H. destruct (list_eqb a b) eqn:E; [apply list_eqb_eq in E; contradiction | reflexivity]. Qed.

(** *** names *)
Definition mkpos (pos : list value) : list arg := map (fun v => (None, v)) pos.
Definition mkkws (kws : list (str * value)) : list arg := map (fun '(k, v) => (Some k, v)) kws.
Lemma existsb_name : forall x sig, existsb (fun a => list_eqb x (da_name a)) sig = true <-> In x (map da_name sig).
Proof.
  intros x sig. rewrite existsb_exists, in_map_iff. split; intros (a & H1 & H2); exists a.
  - apply list_eqb_eq in H2. auto.
  - split; [exact H2 |]. apply list_eqb_eq. auto.
Qed.
Definition kws_ok (sig : list darg) (kws : list (str * value)) : Prop := forall k v, In (k, v) kws -> In k (map da_name sig).
Lemma bind_kws : forall sig args i names, bind_names sig args false i = Some names ->
  exists kws, args = mkkws kws /\ kws_ok sig kws /\ names = map fst kws.
Proof.
  intros sig args. induction args as [| [[k |] v] args IH]; intros i names H; cbn in H; [| | discriminate].
  - injection H as <-. exists []. repeat split. intros k v [].
  - destruct (existsb _ sig) eqn:E; [| discriminate]. destruct (bind_names sig args false i) as [ns |] eqn:B; [| discriminate]. cbn in H. injection H as <-.
    destruct (IH _ _ B) as (kws & -> & K & ->). exists ((k, v) :: kws). split; [reflexivity |]. split; [| reflexivity].
    intros k' v' [Q | Q]; [injection Q as <- <-; apply existsb_name; exact E | eapply K; exact Q].
Qed.
Lemma skipn_nth : forall A i (l : list A) x, nth_error l i = Some x -> skipn i l = x :: skipn (S i) l.
Proof. intros A. induction i as [| i IH]; intros [| y l] x H; try discriminate; cbn in *; [injection H as <-; reflexivity | apply IH, H]. Qed.
Lemma bind_pos : forall sig args i names, bind_names sig args true i = Some names ->
  exists pos kws, args = mkpos pos ++ mkkws kws /\ (i + length pos <= length sig \/ pos = [])%nat /\ kws_ok sig kws /\
    names = firstn (length pos) (skipn i (map da_name sig)) ++ map fst kws.
Proof.
  intros sig args. induction args as [| [[k |] v] args IH]; intros i names H; cbn in H.
  - injection H as <-. exists [], []. cbn. split; [reflexivity |]. split; [auto |]. split; [intros k v [] | reflexivity].
  - destruct (existsb _ sig) eqn:E; [| discriminate]. destruct (bind_names sig args false i) as [ns |] eqn:B; [| discriminate]. cbn in H. injection H as <-.
    destruct (bind_kws _ _ _ _ B) as (kws & -> & K & ->). exists [], ((k, v) :: kws). split; [reflexivity |]. split; [auto |]. split; [| reflexivity].
    intros k' v' [Q | Q]; [injection Q as <- <-; apply existsb_name; exact E | eapply K; exact Q].
  - destruct (nth_error sig i) as [a |] eqn:A; [| discriminate]. cbn in H.
    destruct (existsb _ sig) eqn:E; [| discriminate]. destruct (bind_names sig args true (S i)) as [ns |] eqn:B; [| discriminate]. cbn in H. injection H as <-.
    destruct (IH _ _ B) as (pos & kws & -> & L & K & ->). exists (v :: pos), kws. split; [reflexivity |].
    assert (i < length sig)%nat by (apply nth_error_Some; congruence).
    split; [left; destruct L as [L | ->]; cbn [length] in *; lia |]. split; [exact K |].
    assert (S1 : skipn i (map da_name sig) = da_name a :: skipn (S i) (map da_name sig)).
    { apply skipn_nth. rewrite nth_error_map, A. reflexivity. }
    rewrite S1. reflexivity.
Qed.
Lemma bind_kws_back : forall sig kws i, kws_ok sig kws -> bind_names sig (mkkws kws) false i = Some (map fst kws).
Proof.
  intros sig kws. induction kws as [| [k v] kws IH]; intros i K; [reflexivity |]. cbn.
  assert (E : existsb (fun a => list_eqb k (da_name a)) sig = true) by (apply existsb_name; eapply K; left; reflexivity). rewrite E.
  fold (mkkws kws). rewrite IH; [reflexivity |]. intros k' v' Q. eapply K. right. exact Q.
Qed.
Lemma bind_back : forall sig pos kws i, (i + length pos <= length sig)%nat -> kws_ok sig kws ->
  bind_names sig (mkpos pos ++ mkkws kws) true i = Some (firstn (length pos) (skipn i (map da_name sig)) ++ map fst kws).
Proof.
  intros sig pos kws. induction pos as [| v pos IH]; intros i L K.
  - cbn [mkpos map app length firstn]. destruct kws as [| [k v] kws]; [reflexivity |]. cbn.
    assert (E : existsb (fun a => list_eqb k (da_name a)) sig = true) by (apply existsb_name; eapply K; left; reflexivity). rewrite E.
    fold (mkkws kws). rewrite bind_kws_back; [reflexivity |]. intros k' v' Q. eapply K. right. exact Q.
  - cbn [length] in L. cbn [mkpos map app bind_names]. destruct (nth_error sig i) as [a |] eqn:A; [| apply nth_error_None in A; lia]. cbn [obind].
    assert (E : existsb (fun a0 => list_eqb (da_name a) (da_name a0)) sig = true) by (apply existsb_name, in_map; eapply nth_error_In; exact A). rewrite E.
    fold (mkpos pos). rewrite IH by (lia || assumption). cbn [obind]. 
    rewrite (skipn_nth _ i (map da_name sig) (da_name a)) by (rewrite nth_error_map, A; reflexivity). reflexivity.
Qed.

Lemma last_index_none : forall names x i found, ~ In x names -> last_index names x i found = found.
Proof.
  induction names as [| n names IH]; intros x i found H; [reflexivity |]. cbn. rewrite list_eqb_ne by (intros ->; apply H; left; reflexivity).
  apply IH. intros Q. apply H. right. exact Q.
Qed.
Lemma last_index_app : forall l r x i found, last_index (l ++ r) x i found = last_index r x (i + length l) (last_index l x i found).
Proof.
  induction l as [| n l IH]; intros r x i found; cbn [app last_index length]; [f_equal; lia |]. rewrite IH. f_equal. lia.
Qed.
Lemma last_index_hit : forall l r x i found, ~ In x r -> last_index (l ++ x :: r) x i found = Some (i + length l)%nat.
Proof. intros. rewrite last_index_app. cbn. rewrite list_eqb_refl. apply last_index_none. assumption. Qed.
Lemma last_given_ex : forall kws x, In x (map fst kws) -> exists v, last_given kws x v.
Proof.
  intros kws x. induction kws as [| [k v] kws IH]; intros H; [destruct H |].
  destruct (in_dec (list_eq_dec N.eq_dec) x (map fst kws)) as [I | I].
  - destruct (IH I) as (w & l & r & -> & N). exists w, ((k, v) :: l), r. auto.
  - destruct H as [H | H]; [| contradiction]. cbn in H. subst. exists v, [], kws. auto.
Qed.
Lemma last_given_det : forall kws x v w, last_given kws x v -> last_given kws x w -> v = w.
Proof.
  intros kws x v w (l & r & E & N) (l' & r' & E' & N'). rewrite E in E'. clear E. revert l' E'.
  induction l as [| a l IH]; intros [| b l'] E'; cbn in E'; injection E' as E1 E2.
  - exact E1.
  - exfalso. apply N. rewrite E2, map_app. apply in_or_app. right. left. reflexivity.
  - exfalso. apply N'. rewrite <- E2, map_app. apply in_or_app. right. left. reflexivity.
  - apply (IH l' E2).
Qed.
(** what the loop finds for option [i] *)
Definition chosen (args : list arg) (names : list str) (a : darg) : option value :=
  match last_index names (da_name a) 0 None with
  | Some j => do b <- nth_error args j; Some (snd b)
  | None => Some (match da_default a with Some d => d | None => no_value end)
  end.
Lemma nth_mkpos : forall pos j, nth_error (mkpos pos) j = option_map (fun v => (None, v)) (nth_error pos j).
Proof. intros. apply nth_error_map. Qed.
Lemma mk_len : forall kws, length (mkkws kws) = length kws. Proof. intros. apply map_length. Qed.
Lemma mkp_len : forall kws, length (mkpos kws) = length kws. Proof. intros. apply map_length. Qed.
Lemma NoDup_nth_name : forall sig i j a b, NoDup (map da_name sig) -> nth_error sig i = Some a -> nth_error sig j = Some b ->
  da_name a = da_name b -> i = j.
Proof.
  intros sig i j a b ND A B E. assert (K := proj1 (NoDup_nth_error _) ND). apply K.
  - rewrite map_length. apply nth_error_Some. congruence.
  - rewrite !nth_error_map, A, B. cbn. congruence.
Qed.
Lemma in_firstn_nth : forall A n (l : list A) x, In x (firstn n l) -> exists j, (j < n)%nat /\ nth_error l j = Some x.
Proof.
  induction n as [| n IH]; intros [| y l] x H; cbn in H; try contradiction. destruct H as [-> | H]; [exists O; split; [lia | reflexivity] |].
  destruct (IH l x H) as (j & L & E). exists (S j). split; [lia | exact E].
Qed.
Lemma chosen_spec : forall sig pos kws i a, NoDup (map da_name sig) -> (length pos <= length sig)%nat ->
  nth_error sig i = Some a ->
  exists v, chosen (mkpos pos ++ mkkws kws) (firstn (length pos) (map da_name sig) ++ map fst kws) a = Some v /\
    forall w, (is_empty v = false -> v = w -> assigned pos kws i a w) /\ (assigned pos kws i a w -> v = w).
Proof.
  intros sig pos kws i a ND L A. unfold chosen.
  assert (LP : length (firstn (length pos) (map da_name sig)) = length pos) by (rewrite firstn_length, map_length; lia).
  destruct (in_dec (list_eq_dec N.eq_dec) (da_name a) (map fst kws)) as [I | I].
  - destruct (last_given_ex _ _ I) as (v & G). assert (G0 := G). destruct G as (l & r & -> & N).
    rewrite map_app, app_assoc. cbn [map fst]. rewrite last_index_hit by exact N. rewrite app_length, LP, map_length. cbn [Nat.add].
    rewrite nth_error_app2 by (rewrite mkp_len; lia). rewrite mkp_len. replace (length pos + length l - length pos)%nat with (length l) by lia.
    unfold mkkws. rewrite map_app, nth_error_app2 by (rewrite map_length; lia). rewrite map_length, Nat.sub_diag. cbn.
    exists v. split; [reflexivity |]. intros w. split.
    + intros HE <-. split; [exact HE |]. left. exact G0.
    + intros (_ & [H | [[H _] | [H _]]]); [eapply last_given_det; eassumption | contradiction | contradiction].
  - rewrite last_index_app, (last_index_none (map fst kws)) by exact I.
    destruct (Nat.lt_ge_cases i (length pos)) as [LT | GE].
    + destruct (nth_error pos i) as [v |] eqn:P; [| apply nth_error_None in P; lia].
      assert (S1 : nth_error (firstn (length pos) (map da_name sig)) i = Some (da_name a)).
      { assert (Q : nth_error (map da_name sig) i = Some (da_name a)) by (rewrite nth_error_map, A; reflexivity).
        rewrite <- (firstn_skipn (length pos) (map da_name sig)) in Q. rewrite nth_error_app1 in Q by lia. exact Q. }
      destruct (nth_error_split _ _ S1) as (l & r & E & LL). rewrite E.
      assert (ND' : NoDup (firstn (length pos) (map da_name sig))).
      { rewrite <- (firstn_skipn (length pos) (map da_name sig)) in ND. revert ND. generalize (firstn (length pos) (map da_name sig)) (skipn (length pos) (map da_name sig)).
        induction l0 as [| y l0 IH]; intros l1 ND'; [constructor |]. inversion ND'; subst. constructor; [| eapply IH; eassumption].
        intros Q. apply H1. apply in_or_app. auto. }
      rewrite E in ND'. apply NoDup_remove_2 in ND'. rewrite last_index_hit by (intros Q; apply ND'; apply in_or_app; auto).
      rewrite LL. cbn [Nat.add]. rewrite nth_error_app1 by (rewrite mkp_len; lia). rewrite nth_mkpos, P. cbn.
      exists v. split; [reflexivity |]. intros w. split.
      * intros HE <-. split; [exact HE |]. right. left. auto.
      * intros (_ & [H | [[_ H] | [_ [H _]]]]); [| congruence | congruence]. exfalso. apply I. destruct H as (l0 & r0 & -> & _). rewrite map_app. apply in_or_app. right. left. reflexivity.
    + rewrite last_index_none.
      2:{ intros Q. apply in_firstn_nth in Q. destruct Q as (j & J & Q). rewrite nth_error_map in Q. destruct (nth_error sig j) as [b |] eqn:B; [| discriminate].
          injection Q as Q. assert (i = j) by (eapply NoDup_nth_name; eauto). lia. }
      assert (PN : nth_error pos i = None) by (apply nth_error_None; lia).
      eexists. split; [reflexivity |]. intros w. split.
      * intros HE <-. split; [exact HE |]. right. right. split; [exact I |]. split; [exact PN |]. destruct (da_default a); [reflexivity | discriminate].
      * intros (HE & [H | [[_ H] | [_ [_ H]]]]); [| congruence | rewrite H; reflexivity]. exfalso. apply I. destruct H as (l0 & r0 & -> & _). rewrite map_app. apply in_or_app. right. left. reflexivity.
Qed.

(** *** declarations *)
Lemma find_alg_none : forall l n found, ~ In n (map dn_name l) -> find_alg l n found = found.
Proof.
  induction l as [| d l IH]; intros n found H; [reflexivity |]. cbn. rewrite list_eqb_ne by (intros E; apply H; left; exact E). apply IH. intros Q. apply H. right. exact Q.
Qed.
Lemma find_alg_some : forall l n found d, find_alg l n found = Some d -> found = Some d \/ In d l /\ dn_name d = n.
Proof.
  induction l as [| e l IH]; intros n found d H; [left; exact H |]. cbn in H. apply IH in H. destruct H as [H | [H1 H2]]; [| right; split; [right |]; assumption].
  destruct (list_eqb (dn_name e) n) eqn:E; [| left; exact H]. apply list_eqb_eq in E. injection H as <-. right. split; [left; reflexivity | exact E].
Qed.
Lemma find_alg_in : forall l d found, NoDup (map dn_name l) -> In d l -> find_alg l (dn_name d) found = Some d.
Proof.
  induction l as [| e l IH]; intros d found ND H; [destruct H |]. cbn in ND. inversion ND; subst. cbn. destruct H as [-> | H].
  - rewrite list_eqb_refl. apply find_alg_none. assumption.
  - apply IH; assumption.
Qed.

(** *** sound *)
Lemma map_set_app : forall A (m : list (str * A)) k x, ~ In k (map fst m) -> map_set m k x = m ++ [(k, x)].
Proof.
  induction m as [| [k' y] m IH]; intros k x H; [reflexivity |]. cbn. rewrite list_eqb_ne by (intros ->; apply H; left; reflexivity).
  rewrite IH; [reflexivity |]. intros Q. apply H. right. exact Q.
Qed.
Definition nofix (r : eres (option (list arg) * list (str * pat) * list (str * ov))) := r.
Lemma NoDup_mid : forall (l : list darg) a r, NoDup (map da_name (l ++ a :: r)) -> forall b, In b l -> da_name b <> da_name a.
Proof.
  intros l a r H b HB E. rewrite map_app in H. cbn in H. apply NoDup_remove_2 in H. apply H. apply in_or_app. left. rewrite <- E. apply in_map. exact HB.
Qed.
Definition keys_in (rd : list (str * ov)) (pre : list darg) : Prop := forall k, In k (map fst rd) -> exists b, In b pre /\ da_name b = k.
Lemma keys_fresh : forall rd pre a sig, keys_in rd pre -> NoDup (map da_name (pre ++ a :: sig)) -> ~ In (da_name a) (map fst rd).
Proof. intros rd pre a sig K ND Q. destruct (K _ Q) as (b & B & E). exact (NoDup_mid _ _ _ ND b B E). Qed.
Lemma keys_snoc : forall rd pre a o, keys_in rd pre -> keys_in (rd ++ [(da_name a, o)]) (pre ++ [a]).
Proof.
  intros rd pre a o K k H. rewrite map_app in H. apply in_app_or in H. destruct H as [H | [<- | []]].
  - destruct (K k H) as (b & B & E). exists b. split; [apply in_or_app; auto | exact E].
  - exists a. split; [apply in_or_app; right; left; reflexivity | reflexivity].
Qed.
Lemma keys_weak : forall rd pre a, keys_in rd pre -> keys_in rd (pre ++ [a]).
Proof. intros rd pre a K k H. destruct (K k H) as (b & B & E). exists b. split; [apply in_or_app; auto | exact E]. Qed.
Lemma snoc_app : forall A (l : list A) a r, l ++ a :: r = (l ++ [a]) ++ r.
Proof. intros. rewrite <- app_assoc. reflexivity. Qed.
Lemma nth_mid : forall A (l : list A) a r, nth_error (l ++ a :: r) (length l) = Some a.
Proof. intros. rewrite nth_error_app2, Nat.sub_diag by lia. reflexivity. Qed.

Section Sound.
Variables (T : types) (pattern : bool) (ev : value -> str -> value -> eres ov).
Hypothesis EV : forall v ty o, ev v ty no_value = EOk o -> is_empty v = false -> means T pattern ty v o.
Hypothesis NAME : forall v ty n o p, is_empty v = false -> means T pattern ty v (OAlg n o p) -> pat_name p <> [].
Lemma eval_args_sound : forall full pos kws, NoDup (map da_name full) -> (length pos <= length full)%nat ->
  forall sig pre rs rd fx rs' rd', full = pre ++ sig -> keys_in rd pre ->
  eval_args ev pattern (mkpos pos ++ mkkws kws) (firstn (length pos) (map da_name full) ++ map fst kws) sig None rs rd = EOk (fx, rs', rd') ->
  fx = None /\ exists opts sel, rs' = rs ++ sel /\ rd' = rd ++ opts /\ means_options T pattern pos kws (length pre) sig opts sel.
Proof.
  intros full pos kws ND L. induction sig as [| a sig IH]; intros pre rs rd fx rs' rd' E K H; cbn [eval_args] in H.
  - injection H as <- <- <-. split; [reflexivity |]. exists [], []. rewrite !app_nil_r. split; [reflexivity |]. split; [reflexivity | constructor].
  - assert (A : nth_error full (length pre) = Some a) by (rewrite E; apply nth_mid).
    assert (NX : length (pre ++ [a]) = S (length pre)) by (rewrite app_length; cbn; lia).
    destruct (pattern && negb (da_static a)) eqn:PS.
    + apply andb_prop in PS. destruct PS as [PP PS]. destruct (da_static a) eqn:SA; [discriminate |].
      apply (IH (pre ++ [a])) in H; [| rewrite <- app_assoc; exact E | apply keys_weak, K].
      destruct H as (-> & opts & sel & -> & -> & M). split; [reflexivity |]. exists opts, sel. split; [reflexivity |]. split; [reflexivity |].
      rewrite NX in M. apply Options_left_out; assumption.
    + destruct (chosen_spec full pos kws (length pre) a ND L A) as (v & CV & CS). unfold chosen in CV.
      assert (G : match last_index (firstn (length pos) (map da_name full) ++ map fst kws) (da_name a) 0 None with
                  | Some j => lift (do b <- nth_error (mkpos pos ++ mkkws kws) j; Some (snd b))
                  | None => EOk (match da_default a with Some d => d | None => no_value end) end = EOk v).
      { destruct (last_index _ _ _ _) as [j |]; [| injection CV as ->; reflexivity]. destruct (nth_error _ j); [| discriminate]. cbn in *. injection CV as ->. reflexivity. }
      rewrite G in H. cbn [ebind] in H. destruct (is_empty v) eqn:EM; [discriminate |].
      assert (AS : assigned pos kws (length pre) a v) by (apply (CS v); auto).
      destruct (ev v (da_type a) no_value) as [o | |] eqn:EE; [| discriminate | discriminate]. cbn [ebind] in H.
      assert (MO := EV _ _ _ EE EM).
      assert (FR : ~ In (da_name a) (map fst rd)) by (eapply keys_fresh; [exact K | rewrite <- E; exact ND]).
      rewrite map_set_app in H by exact FR.
      destruct (da_static a) eqn:SA.
      * destruct o as [s | n oo p]; [discriminate |]. cbn [ebind] in H. assert (PN := NAME _ _ _ _ _ EM MO).
        destruct (pat_name p) as [| c0 s0] eqn:PE; [congruence |]. clear PE PN.
        apply (IH (pre ++ [a])) in H; [| rewrite <- app_assoc; exact E | apply keys_snoc, K].
        destruct H as (-> & opts & sel & -> & -> & M). split; [reflexivity |]. exists ((da_name a, OAlg n oo p) :: opts), ((da_name a, p) :: sel).
        rewrite <- !app_assoc. split; [reflexivity |]. split; [reflexivity |]. rewrite NX in M. eapply Options_static; eassumption.
      * cbn [ebind] in H. destruct pattern eqn:PP; [discriminate |].
        apply (IH (pre ++ [a])) in H; [| rewrite <- app_assoc; exact E | apply keys_snoc, K].
        destruct H as (-> & opts & sel & -> & -> & M). split; [reflexivity |]. exists ((da_name a, o) :: opts), sel.
        rewrite <- !app_assoc. split; [reflexivity |]. split; [reflexivity |]. rewrite NX in M. eapply Options_dynamic; eauto.
Qed.
End Sound.

Lemma means_named : forall T pattern ty v n o p, is_empty v = false -> means T pattern ty v (OAlg n o p) -> pat_name p <> [].
Proof. intros T pattern ty v n o p H M. inversion M; subst. cbn. destruct n as [| c n]; [discriminate H | discriminate]. Qed.
Theorem eval_sound : forall T, consistent T -> forall fuel pattern v ty o,
  eval fuel T pattern v ty no_value = EOk o -> means T pattern ty v o.
Proof.
  intros T HC. induction fuel as [| f IH]; intros pattern v ty o H; [discriminate |]. cbn [eval] in H.
  destruct (list_eqb ty str_string) eqn:TS.
  - apply list_eqb_eq in TS. subst ty. destruct v as [s |]; [| discriminate]. injection H as <-. constructor.
  - cbn [is_empty no_value ebind] in H. destruct (ty_find T ty) as [l |] eqn:TF; [| destruct v; discriminate].
    destruct v as [s | n args]; [discriminate |]. destruct (find_alg l n None) as [d |] eqn:FA; [| discriminate]. cbn [lift ebind] in H.
    destruct (bind_names (dn_args d) args true 0) as [names |] eqn:B; [| discriminate]. cbn [lift ebind] in H.
    apply find_alg_some in FA. destruct FA as [FA | [DI DN]]; [discriminate |].
    destruct (HC _ _ TF) as [U S1]. specialize (S1 _ DI).
    destruct (bind_pos _ _ _ _ B) as (pos & kws & -> & L & K & ->). cbn [skipn Nat.add] in *.
    assert (L' : (length pos <= length (dn_args d))%nat) by (destruct L as [L | ->]; cbn; lia).
    destruct (eval_args _ _ _ _ _ _ _ _) as [[[fx rs] rd] | |] eqn:EA; [| discriminate | discriminate]. cbn [ebind] in H.
    destruct (eval_args_sound T pattern _ (fun v0 ty0 o0 HE _ => IH pattern v0 ty0 o0 HE) (fun v0 ty0 => means_named T pattern ty0 v0)
      (dn_args d) pos kws S1 L' (dn_args d) [] [] [] _ _ _ eq_refl (fun k (Q : In k []) => match Q with end) EA) as (-> & opts & sel & -> & -> & M).
    injection H as <-. destruct d as [dn dargs doc]. cbn in *. subst dn.
    apply Means_call with (sig := dargs); auto; [intros ->; rewrite list_eqb_refl in TS; discriminate |]. exists l, doc. auto.
Qed.

(** *** complete *)
Lemma declared_find : forall T ty n sig, consistent T -> declared T ty n sig ->
  exists l doc, ty_find T ty = Some l /\ find_alg l n None = Some (DAlg n sig doc) /\ NoDup (map da_name sig).
Proof.
  intros T ty n sig HC (l & doc & TF & HI). destruct (HC _ _ TF) as [U S1]. exists l, doc. split; [exact TF |].
  split; [| exact (S1 _ HI)]. exact (find_alg_in l (DAlg n sig doc) None U HI).
Qed.
Theorem eval_complete : forall T pattern, consistent T ->
  (forall ty v o, means T pattern ty v o -> exists F, forall fuel, (F <= fuel)%nat -> eval fuel T pattern v ty no_value = EOk o) /\
  (forall pos kws i sig opts sel, means_options T pattern pos kws i sig opts sel ->
    exists F, forall f, (F <= f)%nat -> forall full pre rs rd,
      NoDup (map da_name full) -> (length pos <= length full)%nat -> full = pre ++ sig -> length pre = i -> keys_in rd pre ->
      eval_args (fun v ty fixed => eval f T pattern v ty fixed) pattern (mkpos pos ++ mkkws kws)
        (firstn (length pos) (map da_name full) ++ map fst kws) sig None rs rd = EOk (None, rs ++ sel, rd ++ opts)).
Proof.
  intros T pattern HC. apply means_mutind.
  - intros s. exists 1%nat. intros [| f] H; [lia | reflexivity].
  - intros ty n pos kws sig opts sel HT D L K _ (F & IH). exists (S F). intros [| f] H; [lia |]. cbn [eval].
    rewrite list_eqb_ne by exact HT. cbn [is_empty no_value ebind]. destruct (declared_find _ _ _ _ HC D) as (l & doc & -> & FA & ND).
    rewrite FA. cbn [lift ebind dn_args dn_name]. fold (mkkws kws). change (@map value (option str * value) (fun v => (None, v)) pos) with (mkpos pos). rewrite bind_back by (cbn; auto || lia). cbn [lift ebind skipn].
    assert (X := IH f ltac:(lia) sig [] [] [] ND L eq_refl eq_refl (fun k (Q : In k []) => match Q with end)).
    match type of X with ?A = _ => match goal with |- ebind ?m _ = _ => change m with A end end. rewrite X.
    reflexivity.
  - intros pos kws i. exists O. intros f _ full pre rs rd _ _ _ _ _. cbn. rewrite !app_nil_r. reflexivity.
  - intros pos kws i a sig opts sel PP SA _ (F & IH). exists F. intros f Hf full pre rs rd ND L E LP KI. cbn [eval_args]. rewrite PP, SA in *. cbn [andb negb].
    apply (IH f Hf full (pre ++ [a])); auto; [rewrite <- app_assoc; exact E | rewrite app_length; cbn; lia | apply keys_weak, KI].
  - intros pos kws i a sig opts sel v o PP SA AS _ (F1 & IH1) _ (F2 & IH2). exists (Nat.max F1 F2). intros f Hf full pre rs rd ND L E LP KI.
    cbn [eval_args]. rewrite PP, SA in *. cbn [andb negb].
    assert (A : nth_error full i = Some a) by (rewrite E, <- LP; apply nth_mid).
    destruct (chosen_spec full pos kws i a ND L A) as (v0 & CV & CS). unfold chosen in CV. assert (v0 = v) by (apply (CS v); exact AS). subst v0.
    assert (G : match last_index (firstn (length pos) (map da_name full) ++ map fst kws) (da_name a) 0 None with
                  | Some j => lift (do b <- nth_error (mkpos pos ++ mkkws kws) j; Some (snd b))
                  | None => EOk (match da_default a with Some d => d | None => no_value end) end = EOk v).
    { destruct (last_index _ _ _ _) as [j |]; [| injection CV as ->; reflexivity]. destruct (nth_error _ j); [| discriminate]. cbn in *. injection CV as ->. reflexivity. }
    rewrite G. cbn [ebind]. destruct AS as [EM _]. rewrite EM. rewrite (IH1 f) by lia. cbn [ebind].
    rewrite map_set_app by (eapply keys_fresh; [exact KI | rewrite <- E; exact ND]).
    rewrite (IH2 f ltac:(lia) full (pre ++ [a])); auto; [rewrite <- app_assoc; reflexivity | rewrite <- app_assoc; exact E | rewrite app_length; cbn; lia | apply keys_snoc, KI].
  - intros pos kws i a sig opts sel v n oo p SA AS MM (F1 & IH1) _ (F2 & IH2). exists (Nat.max F1 F2). intros f Hf full pre rs rd ND L E LP KI.
    cbn [eval_args]. rewrite SA in *. cbn [negb]. rewrite andb_false_r.
    assert (A : nth_error full i = Some a) by (rewrite E, <- LP; apply nth_mid).
    destruct (chosen_spec full pos kws i a ND L A) as (v0 & CV & CS). unfold chosen in CV. assert (v0 = v) by (apply (CS v); exact AS). subst v0.
    assert (G : match last_index (firstn (length pos) (map da_name full) ++ map fst kws) (da_name a) 0 None with
                  | Some j => lift (do b <- nth_error (mkpos pos ++ mkkws kws) j; Some (snd b))
                  | None => EOk (match da_default a with Some d => d | None => no_value end) end = EOk v).
    { destruct (last_index _ _ _ _) as [j |]; [| injection CV as ->; reflexivity]. destruct (nth_error _ j); [| discriminate]. cbn in *. injection CV as ->. reflexivity. }
    rewrite G. cbn [ebind]. destruct AS as [EM _]. rewrite EM. rewrite (IH1 f) by lia. cbn [ebind].
    assert (PN := means_named _ _ _ _ _ _ _ EM MM). destruct (pat_name p) as [| c0 s0] eqn:PE; [congruence |].
    rewrite map_set_app by (eapply keys_fresh; [exact KI | rewrite <- E; exact ND]).
    rewrite (IH2 f ltac:(lia) full (pre ++ [a])); auto; [rewrite <- !app_assoc; reflexivity | rewrite <- app_assoc; exact E | rewrite app_length; cbn; lia | apply keys_snoc, KI].
Qed.

(** *** more fuel does not change a result *)
Lemma eval_args_mono : forall ev ev' : value -> str -> value -> eres ov,
  (forall v ty fixed, ev v ty fixed <> EFuel -> ev' v ty fixed = ev v ty fixed) ->
  forall pattern args names sig fixed rs rd,
  eval_args ev pattern args names sig fixed rs rd <> EFuel ->
  eval_args ev' pattern args names sig fixed rs rd = eval_args ev pattern args names sig fixed rs rd.
Proof.
  intros ev ev' HV pattern args names. induction sig as [| a sig IH]; intros fixed rs rd H; [reflexivity |]. cbn [eval_args] in *.
  destruct (pattern && negb (da_static a)); [apply IH, H |].
  destruct (match last_index names (da_name a) 0 None with Some j => _ | None => _ end) as [v | |]; [| reflexivity | reflexivity]. cbn [ebind] in *.
  destruct (match fixed with Some fl => _ | None => _ end) as [[[fx v'] af] | |]; [| reflexivity | reflexivity]. cbn [ebind] in *.
  destruct (is_empty v'); [reflexivity |].
  destruct (ev v' (da_type a) af) as [o | |] eqn:E; cbn [ebind] in H.
  - rewrite (HV _ _ _ ltac:(rewrite E; discriminate)), E. cbn [ebind].
    destruct (if da_static a then _ else _) as [rs' | |]; [| reflexivity | reflexivity]. cbn [ebind] in *. apply IH, H.
  - rewrite (HV _ _ _ ltac:(rewrite E; discriminate)), E. reflexivity.
  - congruence.
Qed.
Lemma eval_S : forall f T pattern v ty fixed, eval (S f) T pattern v ty fixed =
      if list_eqb ty str_string then match v with VStr s => EOk (OStr s) | VInv _ _ => EErr end else
      edo fx <- (if is_empty fixed then EOk None else
                 match fixed, v with
                 | VInv fn fargs, VInv n _ => if list_eqb fn n then EOk (Some fargs) else EErr
                 | _, _ => EErr
                 end);
      match ty_find T ty, v with
      | Some candidates, VInv n args =>
          edo d <- lift (find_alg candidates n None);
          edo names <- lift (bind_names (dn_args d) args true 0);
          edo (fx', rs, rd) <- eval_args (fun v ty fixed => eval f T pattern v ty fixed) pattern args names (dn_args d) fx [] [];
          match fx' with
          | Some (_ :: _) => EErr
          | _ => EOk (OAlg (dn_name d) rd (Pat (dn_name d) rs))
          end
      | _, _ => EErr
      end.
Proof. reflexivity. Qed.
Lemma eval_mono1 : forall fuel T pattern v ty fixed, eval fuel T pattern v ty fixed <> EFuel ->
  eval (S fuel) T pattern v ty fixed = eval fuel T pattern v ty fixed.
Proof.
  induction fuel as [| f IH]; intros T pattern v ty fixed H; [cbn in H; congruence |].
  rewrite (eval_S (S f)). rewrite eval_S in H |- *.
  destruct (list_eqb ty str_string); [reflexivity |].
  destruct (if is_empty fixed then _ else _) as [fx | |]; [| reflexivity | reflexivity]. cbn [ebind] in *.
  destruct (ty_find T ty) as [l |]; [| reflexivity]. destruct v as [s | n args]; [reflexivity |].
  destruct (lift (find_alg l n None)) as [d | |]; [| reflexivity | reflexivity]. cbn [ebind] in *.
  destruct (lift (bind_names (dn_args d) args true 0)) as [names | |]; [| reflexivity | reflexivity]. cbn [ebind] in *.
  rewrite (eval_args_mono (fun v ty fixed => eval f T pattern v ty fixed)).
  - reflexivity.
  - intros v0 ty0 fx0 H0. apply IH, H0.
  - intros C. rewrite C in H. apply H. reflexivity.
Qed.
Lemma eval_mono : forall k fuel T pattern v ty fixed, (fuel <= k)%nat -> eval fuel T pattern v ty fixed <> EFuel ->
  eval k T pattern v ty fixed = eval fuel T pattern v ty fixed.
Proof.
  intros k fuel T pattern v ty fixed L. induction L as [| k L IH]; intros H; [reflexivity |].
  rewrite eval_mono1; [apply IH, H |]. rewrite IH by exact H. exact H.
Qed.
