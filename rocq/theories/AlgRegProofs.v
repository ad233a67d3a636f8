(** Declarations, selections and the registry (C51). *)
From Verif Require Import Base AlgParser AlgEval AlgEvalSpec AlgEvalProofs.
Local Open Scope N_scope.

(** *** equality tests *)
Fixpoint value_eqb_eq (v w : value) {struct v} : value_eqb v w = true -> v = w.
Proof.
  destruct v as [s | n a], w as [t | m b]; cbn; intros H; try discriminate.
  - apply list_eqb_eq in H. congruence.
  - apply andb_prop in H. destruct H as [H1 H2]. apply list_eqb_eq in H1. subst m. f_equal. revert b H2.
    induction a as [| [k x] a IH]; intros [| [l y] b] H; try discriminate; [reflexivity |].
    apply andb_prop in H. destruct H as [H H3]. apply andb_prop in H. destruct H as [H1 H2].
    apply value_eqb_eq in H2. apply IH in H3. subst y b. destruct k as [k |], l as [l |]; try discriminate; [| reflexivity].
    apply list_eqb_eq in H1. subst. reflexivity.
Qed.
Lemma darg_eqb_eq : forall a b, darg_eqb a b = true -> a = b.
Proof.
  intros [n1 s1 t1 d1] [n2 s2 t2 d2]. unfold darg_eqb. cbn. intros H. apply andb_prop in H. destruct H as [H H4]. apply andb_prop in H. destruct H as [H H3].
  apply andb_prop in H. destruct H as [H1 H2]. apply list_eqb_eq in H1, H3. apply Bool.eqb_prop in H2. subst.
  destruct d1, d2; try discriminate; [| reflexivity]. apply value_eqb_eq in H4. subst. reflexivity.
Qed.
Lemma dargs_eqb_eq : forall a b, dargs_eqb a b = true -> a = b.
Proof.
  induction a as [| x a IH]; intros [| y b] H; try discriminate; [reflexivity |]. cbn in H. apply andb_prop in H. destruct H as [H1 H2].
  apply darg_eqb_eq in H1. apply IH in H2. congruence.
Qed.
Lemma dalg_eqb_eq : forall a b, dalg_eqb a b = true -> a = b.
Proof.
  intros [n1 a1 d1] [n2 a2 d2]. unfold dalg_eqb. cbn. intros H. apply andb_prop in H. destruct H as [H H3]. apply andb_prop in H. destruct H as [H1 H2].
  apply list_eqb_eq in H1, H3. apply dargs_eqb_eq in H2. congruence.
Qed.
Fixpoint pat_eqb_eq (p q : pat) {struct p} : pat_eqb p q = true <-> p = q.
Proof.
  destruct p as [n a], q as [m b]. cbn. rewrite andb_true_iff, list_eqb_eq.
  match goal with |- _ /\ ?X = true <-> _ => assert (G : X = true <-> a = b) end.
  2:{ rewrite G. split; [intros [-> ->]; reflexivity | intros E; injection E as -> ->; auto]. }
  revert b. induction a as [| [k x] a IH]; intros [| [l y] b]; try (split; congruence).
  rewrite !andb_true_iff, list_eqb_eq, pat_eqb_eq, IH. split; [intros [[-> ->] ->]; reflexivity | intros E; injection E as -> -> ->; auto].
Qed.

(** *** type tables *)
Lemma ty_find_set : forall T ty l ty', ty_find (ty_set T ty l) ty' = if list_eqb ty ty' then Some l else ty_find T ty'.
Proof.
  induction T as [| [t x] T IH]; intros ty l ty'; cbn.
  - destruct (list_eqb ty ty'); reflexivity.
  - destruct (list_eqb t ty) eqn:E.
    + apply list_eqb_eq in E. subst t. cbn. destruct (list_eqb ty ty'); reflexivity.
    + cbn. rewrite IH. destruct (list_eqb t ty') eqn:E'; [| reflexivity]. apply list_eqb_eq in E'. subst t.
      destruct (list_eqb ty ty') eqn:E''; [| reflexivity]. apply list_eqb_eq in E''. subst. rewrite list_eqb_refl in E. discriminate.
Qed.
Definition unique (T : types) : Prop := forall ty l, ty_find T ty = Some l -> NoDup (map dn_name l).
Definition extends (T T' : types) : Prop := forall ty n sig, declared T ty n sig -> declared T' ty n sig.
Lemma known_false : forall l d, known_alg l d = Some false -> ~ In (dn_name d) (map dn_name l).
Proof.
  induction l as [| x l IH]; intros d H Q; [destruct Q |]. cbn in H, Q. destruct (list_eqb (dn_name x) (dn_name d)) eqn:E.
  - destruct (dalg_eqb x d); discriminate.
  - destruct Q as [Q | Q]; [rewrite Q, list_eqb_refl in E; discriminate |]. exact (IH d H Q).
Qed.
Lemma known_true : forall l d, known_alg l d = Some true -> In d l.
Proof.
  induction l as [| x l IH]; intros d H; [discriminate |]. cbn in H. destruct (list_eqb (dn_name x) (dn_name d)) eqn:E.
  - destruct (dalg_eqb x d) eqn:Q; [| discriminate]. apply dalg_eqb_eq in Q. left. exact Q.
  - right. apply IH, H.
Qed.
Lemma NoDup_snoc : forall A (l : list A) x, NoDup l -> ~ In x l -> NoDup (l ++ [x]).
Proof.
  induction l as [| y l IH]; intros x ND H; cbn; [constructor; [intros [] | constructor] |]. inversion ND; subst. constructor.
  - intros Q. apply in_app_or in Q. destruct Q as [Q | [-> | []]]; [contradiction | apply H; left; reflexivity].
  - apply IH; [assumption |]. intros Q. apply H. right. exact Q.
Qed.

Definition decl_of (T : types) (m : meta) : Prop := declared T (m_type m) (m_name m) (m_opts m).
Definition gathers := fix go (T : types) (subs : list meta) : option types :=
  match subs with [] => Some T | s :: r => do T <- gather T s; go T r end.
Definition gather_top (T : types) (ty n doc : str) (opts : list darg) : option types :=
  let l := match ty_find T ty with Some l => l | None => [] end in
  do known <- known_alg l (DAlg n opts doc); Some (if known : bool then ty_set T ty l else ty_set T ty (l ++ [DAlg n opts doc])).
Lemma gather_eq : forall T ty n doc opts s subs, gather T (Meta ty n doc opts s subs) = do T' <- gather_top T ty n doc opts; gathers T' subs.
Proof.
  intros. cbn [gather]. unfold gather_top. destruct (known_alg _ _) as [k |]; [| reflexivity]. reflexivity.
Qed.
Lemma gather_top_spec : forall T ty n doc opts T', unique T -> gather_top T ty n doc opts = Some T' ->
  unique T' /\ extends T T' /\ declared T' ty n opts /\
  (forall ty' n' sig, declared T' ty' n' sig -> declared T ty' n' sig \/ ty' = ty /\ n' = n /\ sig = opts).
Proof.
  intros T ty n doc opts T' U H. unfold gather_top in H. set (l := match ty_find T ty with Some l => l | None => [] end) in *.
  assert (UL : NoDup (map dn_name l)) by (unfold l; destruct (ty_find T ty) eqn:E; [exact (U _ _ E) | constructor]).
  assert (DL : forall n0 sig doc0, In (DAlg n0 sig doc0) l -> declared T ty n0 sig).
  { intros n0 sig doc0 HI. unfold l in HI. destruct (ty_find T ty) as [l0 |] eqn:E; [| destruct HI]. exists l0, doc0. auto. }
  assert (LD : forall n0 sig, declared T ty n0 sig -> exists doc0, In (DAlg n0 sig doc0) l).
  { intros n0 sig (l0 & doc0 & E & HI). unfold l. rewrite E. eauto. }
  destruct (known_alg l (DAlg n opts doc)) as [[|] |] eqn:K; [| | discriminate]; cbn in H; injection H as <-.
  - apply known_true in K. split; [| split; [| split]].
    + intros ty' l' E. rewrite ty_find_set in E. destruct (list_eqb ty ty'); [injection E as <-; exact UL | exact (U _ _ E)].
    + intros ty' n' sig HD. destruct (list_eq_dec N.eq_dec ty ty') as [<- | NE].
      * destruct (LD _ _ HD) as [doc0 HI]. exists l, doc0. rewrite ty_find_set, list_eqb_refl. auto.
      * destruct HD as (l0 & doc0 & E & HI). exists l0, doc0. rewrite ty_find_set, list_eqb_ne by exact NE. auto.
    + exists l, doc. rewrite ty_find_set, list_eqb_refl. auto.
    + intros ty' n' sig (l0 & doc0 & E & HI). rewrite ty_find_set in E. destruct (list_eqb ty ty') eqn:TE; [| left; exists l0, doc0; auto].
      apply list_eqb_eq in TE. subst ty'. injection E as <-. left. eapply DL; exact HI.
  - assert (NK := known_false _ _ K). cbn in NK. split; [| split; [| split]].
    + intros ty' l' E. rewrite ty_find_set in E. destruct (list_eqb ty ty'); [| exact (U _ _ E)]. injection E as <-. rewrite map_app. apply NoDup_snoc; assumption.
    + intros ty' n' sig HD. destruct (list_eq_dec N.eq_dec ty ty') as [<- | NE].
      * destruct (LD _ _ HD) as [doc0 HI]. eexists _, doc0. rewrite ty_find_set, list_eqb_refl. split; [reflexivity |]. apply in_or_app. auto.
      * destruct HD as (l0 & doc0 & E & HI). exists l0, doc0. rewrite ty_find_set, list_eqb_ne by exact NE. auto.
    + eexists _, doc. rewrite ty_find_set, list_eqb_refl. split; [reflexivity |]. apply in_or_app. right. left. reflexivity.
    + intros ty' n' sig (l0 & doc0 & E & HI). rewrite ty_find_set in E. destruct (list_eqb ty ty') eqn:TE; [| left; exists l0, doc0; auto].
      apply list_eqb_eq in TE. subst ty'. injection E as <-. apply in_app_or in HI. destruct HI as [HI | [HI | []]].
      * left. eapply DL; exact HI.
      * injection HI as <- <- <-. auto.
Qed.
Definition gather_ok (T : types) (ms : list meta) (T' : types) : Prop :=
  unique T' /\ extends T T' /\ (forall s m, In m ms -> within s m -> decl_of T' s) /\
  (forall ty n sig, declared T' ty n sig -> declared T ty n sig \/ exists s m, In m ms /\ within s m /\ m_type s = ty /\ m_name s = n /\ m_opts s = sig).
Fixpoint gather_spec (m : meta) {struct m} : forall T T', unique T -> gather T m = Some T' -> gather_ok T [m] T'.
Proof.
  destruct m as [ty n doc opts sargs subs]. intros T T' U H. rewrite gather_eq in H.
  destruct (gather_top T ty n doc opts) as [T1 |] eqn:G; [| discriminate]. cbn in H.
  destruct (gather_top_spec _ _ _ _ _ _ U G) as (U1 & X1 & D1 & O1).
  assert (S1 : gather_ok T1 subs T').
  { clear G D1 O1 X1 U. revert T1 U1 H. induction subs as [| s subs IH]; intros T1 U1 H; cbn in H.
    - injection H as <-. split; [exact U1 |]. split; [intros ? ? ? Q; exact Q |]. split; [intros ? ? [] | auto].
    - destruct (gather T1 s) as [T2 |] eqn:G; [| discriminate]. cbn in H.
      destruct (gather_spec s T1 T2 U1 G) as (U2 & X2 & W2 & O2). destruct (IH T2 U2 H) as (U3 & X3 & W3 & O3).
      split; [exact U3 |]. split; [intros ? ? ? Q; apply X3, X2, Q |]. split.
      + intros s' m' [<- | HI] HW; [apply X3; exact (W2 _ _ (or_introl eq_refl) HW) | exact (W3 _ _ HI HW)].
      + intros ty' n' sig HD. destruct (O3 _ _ _ HD) as [Q | (s' & m' & HI & R)].
        * destruct (O2 _ _ _ Q) as [Q' | (s' & m' & [<- | []] & R)]; [left; exact Q' |]. right. exists s', s. split; [left; reflexivity | exact R].
        * right. exists s', m'. split; [right; exact HI | exact R]. }
  destruct S1 as (U2 & X2 & W2 & O2). split; [exact U2 |]. split; [intros ? ? ? Q; apply X2, X1, Q |]. split.
  - intros s m [<- | []] HW. inversion HW as [| s0 t m0 HW' HI]; subst.
    + apply X2. exact D1.
    + exact (W2 _ _ HI HW').
  - intros ty' n' sig HD. destruct (O2 _ _ _ HD) as [Q | (s & m & HI & HW & R)].
    + destruct (O1 _ _ _ Q) as [Q' | (-> & -> & ->)]; [left; exact Q' |]. right. eexists _, _. split; [left; reflexivity |]. split; [apply W_self | auto].
    + right. eexists s, _. split; [left; reflexivity |]. split; [eapply W_sub; [exact HW | exact HI] | exact R].
Qed.

(** *** metas *)
Lemma add_opt_inv : forall m a sa sub m', add_opt m a sa sub = Some m' ->
  ~ In (da_name a) (map da_name (m_opts m)) /\ m_opts m' = m_opts m ++ [a] /\ m_subs m' = m_subs m ++ sub /\ m_sargs m' = m_sargs m ++ sa /\
  m_name m' = m_name m /\ m_type m' = m_type m.
Proof.
  intros [t n d o s u] a sa sub m' H. unfold add_opt, arg_free in H. cbn in H. destruct (existsb _ o) eqn:E; [discriminate |]. injection H as <-. cbn.
  split; [| auto]. intros Q. apply in_map_iff in Q. destruct Q as (b & B1 & B2).
  assert (X : existsb (fun a0 => list_eqb (da_name a0) (da_name a)) o = true) by (apply existsb_exists; exists b; split; [exact B2 | apply list_eqb_eq; exact B1]). congruence.
Qed.
(** each built meta, by what its last step was *)
Lemma built_options : forall m, built m -> NoDup (map da_name (m_opts m)).
Proof.
  intros m H. induction H; [constructor | | | |].
  1: unfold opt_templated in H1. 2: unfold opt_templated_default in H2. 3: unfold opt_dynamic in H0. 4: unfold opt_compressor in H0.
  all: match goal with Q : add_opt _ _ _ _ = Some _ |- _ => apply add_opt_inv in Q; destruct Q as (NI & -> & _) end; rewrite map_app; apply NoDup_snoc; assumption.
Qed.
Lemma built_subs : forall m, built m -> forall s, In s (m_subs m) -> built s.
Proof.
  intros m H. induction H; intros s HS; [destruct HS | | | |].
  1: unfold opt_templated in H1. 2: unfold opt_templated_default in H2. 3: unfold opt_dynamic in H0. 4: unfold opt_compressor in H0.
  all: match goal with Q : add_opt _ _ _ _ = Some _ |- _ => apply add_opt_inv in Q; destruct Q as (_ & _ & ES & _) end; rewrite ES in HS; apply in_app_or in HS;
    cbn [In] in HS; intuition (subst; auto).
Qed.
Lemma built_within : forall s m, within s m -> built m -> built s.
Proof. intros s m H. induction H; intros B; [exact B |]. apply IHwithin. eapply built_subs; eauto. Qed.

(** defaults: strings, or values in which every option is given *)
Inductive complete (T : types) : str -> value -> Prop :=
| C_leaf : forall ty s, complete T ty (VStr s)
| C_inv : forall ty n sig f, declared T ty n sig -> (forall a, In a sig -> complete T (da_type a) (f a)) ->
    complete T ty (VInv n (map (fun a => (Some (da_name a), f a)) sig)).
Lemma complete_extends : forall T T' ty v, extends T T' -> complete T ty v -> complete T' ty v.
Proof. intros T T' ty v X H. induction H; [constructor |]. econstructor; eauto. Qed.
Lemma built_defaults : forall T m, built m -> (forall s t, In t (m_subs m) -> within s t -> decl_of T s) ->
  forall a v, In a (m_opts m) -> da_default a = Some v -> complete T (da_type a) v /\ (da_static a = false -> da_type a = str_string).
Proof.
  intros T m H. induction H; intros HD a v HA HV; [destruct HA | | | |].
  1: unfold opt_templated in H1. 2: unfold opt_templated_default in H2. 3: unfold opt_dynamic in H0. 4: unfold opt_compressor in H0.
  all: match goal with Q : add_opt _ _ _ _ = Some _ |- _ => apply add_opt_inv in Q; destruct Q as (_ & EO & ES & _) end; rewrite EO in HA; rewrite ES in HD;
    apply in_app_or in HA; destruct HA as [HA | [<- | []]].
  all: try (eapply IHbuilt; eauto; intros s0 t0 Q; apply HD; apply in_or_app; auto; fail).
  all: try (eapply IHbuilt1; eauto; intros s0 t0 Q; apply HD; apply in_or_app; auto; fail).
  - discriminate HV.
  - cbn in HV |- *. injection HV as <-. split; [| discriminate]. unfold default_value. apply C_inv.
    + apply (HD d d); [apply in_or_app; right; right; left; reflexivity | apply W_self].
    + intros a HA. destruct (da_default a) as [w |] eqn:E; [| constructor]. eapply IHbuilt3; eauto.
      intros s0 t0 Q W. apply (HD s0 d); [apply in_or_app; right; right; left; reflexivity |]. eapply W_sub; eauto.
  - cbn in HV |- *. destruct d as [d |]; [| discriminate]. cbn in HV. injection HV as <-. split; [constructor | reflexivity].
  - discriminate HV.
Qed.
(** dynamic options are strings or compressors without default *)
Definition defaults_complete (T : types) : Prop := forall ty n sig a v, declared T ty n sig -> In a sig -> da_default a = Some v ->
  complete T (da_type a) v /\ (da_static a = false -> da_type a = str_string).
Definition table_ok (T : types) : Prop := consistent T /\ defaults_complete T.
Lemma table_unique : forall T, table_ok T -> unique T.
Proof. intros T [C _] ty l E. apply (C _ _ E). Qed.
Lemma gather_table : forall T m T', table_ok T -> built m -> gather T m = Some T' -> table_ok T' /\ extends T T' /\ decl_of T' m.
Proof.
  intros T m T' HT HB H. destruct (gather_spec m T T' (table_unique _ HT) H) as (U & X & W & O). destruct HT as [HC HD].
  split; [split |]; [| | split; [exact X | apply (W m m); [left; reflexivity | apply W_self]]].
  - intros ty l E. split; [exact (U _ _ E) |]. intros [n sig doc] HI. cbn.
    destruct (O ty n sig) as [(l0 & doc0 & E0 & H0) | (s & m' & [<- | []] & HW & _ & _ & <-)]; [exists l, doc; auto | |].
    + destruct (HC _ _ E0) as [_ Q]. exact (Q _ H0).
    + apply built_options. eapply built_within; eassumption.
  - intros ty n sig a v HDecl HA HV. destruct (O ty n sig HDecl) as [Q | (s & m' & [<- | []] & HW & _ & _ & <-)].
    + destruct (HD _ _ _ _ _ Q HA HV) as [C1 C2]. split; [eapply complete_extends; eassumption | exact C2].
    + eapply built_defaults; [eapply built_within; eassumption | | exact HA | exact HV].
      intros s' t HI HW'. apply (W s' m); [left; reflexivity |].
      clear - HW HW' HI. revert HW. induction 1; [eapply W_sub; eassumption |]. eapply W_sub; [apply IHHW; assumption | assumption].
Qed.

(** *** evaluation ends *)
Definition ends (T : types) (pattern : bool) (v : value) (ty : str) (fixed : value) : Prop := exists F, eval F T pattern v ty fixed <> EFuel.
Definition chosen_by (args : list arg) (names : list str) (a : darg) : option value := chosen args names a.
Lemma eval_args_ends : forall T pattern args names sig fixed rs rd,
  (forall a v, In a sig -> chosen args names a = Some v -> da_static a = false \/ fixed = None -> is_empty v = false -> ends T pattern v (da_type a) no_value) ->
  (forall a v c fl, In a sig -> da_static a = true -> fixed = Some fl -> In c fl ->
     (chosen args names a = Some v /\ last_index names (da_name a) 0 None <> None) \/ v = snd c -> ends T pattern v (da_type a) (snd c)) ->
  exists F, forall f, (F <= f)%nat -> eval_args (fun v ty fixed => eval f T pattern v ty fixed) pattern args names sig fixed rs rd <> EFuel.
Proof.
  intros T pattern args names. induction sig as [| a sig IH]; intros fixed rs rd H1 H2; [exists O; intros; discriminate |]. cbn [eval_args].
  assert (IH1 : forall fx rs rd, (fx = None -> fixed = None) -> (forall fl, fx = Some fl -> exists fl0, fixed = Some fl0 /\ incl fl fl0) ->
    exists F, forall f, (F <= f)%nat -> eval_args (fun v ty fixed => eval f T pattern v ty fixed) pattern args names sig fx rs rd <> EFuel).
  { intros fx rs0 rd0 N1 N2. apply IH.
    - intros b v HB HC HS. apply H1; [right; exact HB | exact HC |]. destruct HS as [HS | HS]; [left; exact HS | right; auto].
    - intros b v c fl HB SB -> HI HO. destruct (N2 fl eq_refl) as (fl0 & -> & INC). apply (H2 b v c fl0); auto. right. exact HB. }
  assert (SAME : forall fl, fixed = Some fl -> exists fl0, fixed = Some fl0 /\ incl fl fl0) by (intros fl E; exists fl; split; [exact E | apply incl_refl]).
  destruct (pattern && negb (da_static a)); [apply IH1; auto |].
  destruct (chosen args names a) as [v |] eqn:CH; unfold chosen in CH.
  2:{ exists O. intros f _. destruct (last_index names (da_name a) 0 None) as [j |]; [| discriminate]. destruct (nth_error args j); discriminate. }
  assert (G : match last_index names (da_name a) 0 None with
              | Some j => lift (do b <- nth_error args j; Some (snd b))
              | None => EOk (match da_default a with Some d => d | None => no_value end) end = EOk v).
  { destruct (last_index _ _ _ _) as [j |]; [| injection CH as ->; reflexivity]. destruct (nth_error _ j); [| discriminate]. cbn in *. injection CH as ->. reflexivity. }
  rewrite G. cbn [ebind]. fold (chosen args names a) in CH.
  assert (CALL : forall fx w af, (fx = None -> fixed = None) -> (forall fl, fx = Some fl -> exists fl0, fixed = Some fl0 /\ incl fl fl0) ->
    (is_empty w = false -> ends T pattern w (da_type a) af) ->
    exists F, forall f, (F <= f)%nat ->
      (if is_empty w then EErr else
       edo o <- eval f T pattern w (da_type a) af;
       edo rs' <- (if da_static a then match o with OStr _ => EErr | OAlg _ _ p => EOk (match pat_name p with [] => rs | _ => rs ++ [(da_name a, p)] end) end else EOk rs);
       eval_args (fun v ty fixed => eval f T pattern v ty fixed) pattern args names sig fx rs' (map_set rd (da_name a) o)) <> EFuel).
  { intros fx w af N1 N2 E. destruct (is_empty w); [exists O; intros; discriminate |]. destruct (E eq_refl) as (F1 & HF1).
    destruct (eval F1 T pattern w (da_type a) af) as [o | |] eqn:R; [| | congruence].
    - assert (ST : forall f, (F1 <= f)%nat -> eval f T pattern w (da_type a) af = EOk o).
      { intros f Hf. rewrite <- R. apply eval_mono; [exact Hf | rewrite R; discriminate]. }
      destruct (da_static a).
      + destruct o as [s | n oo p]; [exists F1; intros f Hf; rewrite ST by lia; discriminate |].
        destruct (IH1 fx (match pat_name p with [] => rs | _ => rs ++ [(da_name a, p)] end) (map_set rd (da_name a) (OAlg n oo p)) N1 N2) as (F2 & HF2).
        exists (Nat.max F1 F2). intros f Hf. rewrite ST by lia. cbn [ebind]. apply HF2. lia.
      + destruct (IH1 fx rs (map_set rd (da_name a) o) N1 N2) as (F2 & HF2).
        exists (Nat.max F1 F2). intros f Hf. rewrite ST by lia. cbn [ebind]. apply HF2. lia.
    - exists F1. intros f Hf. rewrite (eval_mono f F1) by (lia || (rewrite R; discriminate)). rewrite R. discriminate. }
  destruct fixed as [fl |].
  - destruct (da_static a) eqn:SA.
    + destruct fl as [| c fl]; [exists O; intros; discriminate |]. destruct (list_eqb (keyword c) (da_name a)); [| exists O; intros; discriminate]. cbn [ebind].
      apply CALL; [discriminate | intros fl' E; injection E as <-; exists (c :: fl); split; [reflexivity | intros x Hx; right; exact Hx] |].
      intros _. apply (H2 a _ c (c :: fl)); auto; [left; reflexivity | left; reflexivity |].
      destruct (last_index names (da_name a) 0 None) eqn:LI; [left; split; [exact CH | discriminate] | right; reflexivity].
    + cbn [ebind]. apply CALL; auto. intros EM. apply (H1 a); auto. left. reflexivity.
  - cbn [ebind]. apply CALL; auto. intros EM. apply (H1 a); auto. left. reflexivity.
Qed.
Lemma declared_det : forall T ty n sig sig', consistent T -> declared T ty n sig -> declared T ty n sig' -> sig = sig'.
Proof.
  intros T ty n sig sig' HC D D'. destruct (declared_find _ _ _ _ HC D) as (l & doc & E & F & _). destruct (declared_find _ _ _ _ HC D') as (l' & doc' & E' & F' & _).
  congruence.
Qed.
Lemma ends_call : forall T pattern n args ty fixed,
  (forall d names fx, (exists l, ty_find T ty = Some l /\ In d l) -> dn_name d = n -> bind_names (dn_args d) args true 0 = Some names ->
     (fx = None /\ is_empty fixed = true \/ exists fl, fx = Some fl /\ fixed = VInv n fl) ->
     exists F, forall f, (F <= f)%nat -> eval_args (fun v ty fixed => eval f T pattern v ty fixed) pattern args names (dn_args d) fx [] [] <> EFuel) ->
  ends T pattern (VInv n args) ty fixed.
Proof.
  intros T pattern n args ty fixed H. unfold ends.
  destruct (list_eqb ty str_string) eqn:TS; [exists 1%nat; rewrite eval_S, TS; discriminate |].
  destruct (ty_find T ty) as [l |] eqn:TF.
  2:{ exists 1%nat. rewrite eval_S, TS, TF. destruct (is_empty fixed); [discriminate |]. destruct fixed as [s | fn fl]; [discriminate |]. destruct (list_eqb fn n); discriminate. }
  destruct (find_alg l n None) as [d |] eqn:FA.
  2:{ exists 1%nat. rewrite eval_S, TS, TF, FA. destruct (is_empty fixed); [discriminate |]. destruct fixed as [s | fn fl]; [discriminate |]. destruct (list_eqb fn n); discriminate. }
  destruct (bind_names (dn_args d) args true 0) as [names |] eqn:B.
  2:{ exists 1%nat. rewrite eval_S, TS, TF, FA. cbn [lift ebind]. rewrite B. destruct (is_empty fixed); [discriminate |]. destruct fixed as [s | fn fl]; [discriminate |]. destruct (list_eqb fn n); discriminate. }
  assert (FA' := FA). apply find_alg_some in FA'. destruct FA' as [FA' | [DI DN]]; [discriminate |].
  assert (GO : forall fx, (fx = None /\ is_empty fixed = true \/ exists fl, fx = Some fl /\ fixed = VInv n fl) ->
    exists F, eval_args (fun v ty fixed => eval F T pattern v ty fixed) pattern args names (dn_args d) fx [] [] <> EFuel).
  { intros fx HX. destruct (H d names fx) as (F & HF); eauto. }
  destruct (is_empty fixed) eqn:EM.
  - destruct (GO None) as (F & HF); [left; auto |]. exists (S F). rewrite eval_S, TS, EM, TF, FA. cbn [lift ebind]. rewrite B. cbn [lift ebind].
    destruct (eval_args _ _ _ _ _ _ _ _) as [[[[[| ?] |] ?] ?] | |]; cbn [ebind]; congruence || discriminate.
  - destruct fixed as [s | fn fl]; [exists 1%nat; rewrite eval_S, TS, EM; discriminate |]. destruct (list_eqb fn n) eqn:FN.
    2:{ exists 1%nat. rewrite eval_S, TS, EM, FN. discriminate. }
    apply list_eqb_eq in FN. subst fn. destruct (GO (Some fl)) as (F & HF); [right; eauto |]. exists (S F). rewrite eval_S, TS, EM, list_eqb_refl, TF, FA. cbn [lift ebind]. rewrite B. cbn [lift ebind].
    destruct (eval_args _ _ _ _ _ _ _ _) as [[[[[| ?] |] ?] ?] | |]; cbn [ebind]; congruence || discriminate.
Qed.
Lemma ends_leaf : forall T pattern s ty fixed, ends T pattern (VStr s) ty fixed.
Proof.
  intros. exists 1%nat. rewrite eval_S. destruct (list_eqb ty str_string); [discriminate |]. destruct (is_empty fixed); cbn [ebind]; [destruct (ty_find T ty); discriminate |].
  destruct fixed; discriminate.
Qed.
Lemma nth_find_in : forall A (l : list A) x, In x l -> exists i, nth_error l i = Some x.
Proof. intros. apply In_nth_error. assumption. Qed.
Lemma complete_ends : forall T pattern ty v, consistent T -> complete T ty v -> ends T pattern v ty no_value.
Proof.
  intros T pattern ty v HC H. induction H as [ty s | ty n sig f HD _ IH]; [apply ends_leaf |]. apply ends_call.
  intros d names fx (l & TF & DI) DN B [[-> _] | (fl & _ & C)]; [| discriminate].
  assert (DS : dn_args d = sig). { apply (declared_det T ty n); auto. exists l, (dn_doc d). split; [exact TF |]. subst n. destruct d; exact DI. }
  rewrite DS in *. set (kws := map (fun a => (da_name a, f a)) sig).
  assert (EA : map (fun a : darg => (Some (da_name a), f a)) sig = mkpos [] ++ mkkws kws) by (cbn; unfold kws, mkkws; rewrite map_map; reflexivity).
  assert (ND : NoDup (map da_name sig)) by (destruct (HC _ _ TF) as [_ Q]; rewrite <- DS; exact (Q _ DI)).
  rewrite EA in B |- *. rewrite bind_back in B; [| cbn; lia |].
  2:{ intros k w Q. unfold kws in Q. apply in_map_iff in Q. destruct Q as (a & Q & HA). injection Q as <- <-. apply in_map. exact HA. }
  injection B as <-. apply eval_args_ends; [| discriminate]. intros a v HA CH _ EM. destruct (nth_find_in _ _ _ HA) as (i & NI).
  destruct (chosen_spec sig [] kws i a ND ltac:(cbn; lia) NI) as (v0 & C0 & CS).
  change (chosen (mkpos [] ++ mkkws kws) (firstn 0 (map da_name sig) ++ map fst kws) a = Some v0) in C0.
  match type of CH with ?L = _ => change (chosen (mkpos [] ++ mkkws kws) (firstn 0 (map da_name sig) ++ map fst kws) a = Some v) in CH end.
  assert (v0 = v) by congruence. subst v0. destruct (proj1 (CS v) EM eq_refl) as (_ & [(l0 & r0 & EK & _) | [[NI' _] | [NI' _]]]).
  - assert (Q : In (da_name a, v) kws) by (rewrite EK; apply in_or_app; right; left; reflexivity). unfold kws in Q. apply in_map_iff in Q. destruct Q as (b & Q & HB).
    injection Q as Q1 <-. destruct (nth_find_in _ _ _ HB) as (j & NJ). assert (i = j) by (eapply NoDup_nth_name; eauto). subst j. assert (a = b) by congruence. subst b. apply IH, HA.
  - exfalso. apply NI'. unfold kws. rewrite map_map. apply in_map_iff. exists a. auto.
  - exfalso. apply NI'. unfold kws. rewrite map_map. apply in_map_iff. exists a. auto.
Qed.
Fixpoint vdepth (v : value) : nat :=
  match v with VStr _ => O | VInv _ args => S (fold_right (fun a n => Nat.max (vdepth (snd a)) n) O args) end.
Lemma vdepth_arg : forall n args a, In a args -> (vdepth (snd a) < vdepth (VInv n args))%nat.
Proof.
  intros n args a H. cbn [vdepth]. apply Nat.lt_succ_r. induction args as [| b args IH]; [destruct H |]. cbn [fold_right]. destruct H as [-> | H]; [lia |]. specialize (IH H). lia.
Qed.
Lemma all_end : forall T pattern, table_ok T -> forall k v ty fixed, (vdepth v <= k)%nat -> (vdepth fixed <= k)%nat -> ends T pattern v ty fixed.
Proof.
  intros T pattern [HC HD]. induction k as [| k IH]; intros [s | n args] ty fixed L1 L2; try apply ends_leaf; [cbn in L1; lia |]. apply ends_call.
  intros d names fx (l & TF & DI) DN B HX.
  assert (DECL : declared T ty n (dn_args d)). { exists l, (dn_doc d). split; [exact TF |]. subst n. destruct d; exact DI. }
  assert (FROM : forall a v, chosen args names a = Some v -> last_index names (da_name a) 0 None <> None -> (vdepth v <= k)%nat).
  { intros a v CH LI. unfold chosen in CH. destruct (last_index names (da_name a) 0 None) as [j |]; [| congruence].
    change ((match nth_error args j with Some b => Some (snd b) | None => None end) = Some v) in CH.
    destruct (nth_error args j) as [b |] eqn:NB; [| discriminate CH]. injection CH as <-. assert (Q := vdepth_arg n args b (nth_error_In _ _ NB)). lia. }
  apply eval_args_ends.
  - intros a v HA CH HS EM. destruct (last_index names (da_name a) 0 None) as [j |] eqn:LI.
    + apply IH; [| cbn; lia]. apply (FROM a); [exact CH | congruence].
    + unfold chosen in CH. rewrite LI in CH. injection CH as <-. destruct (da_default a) as [v |] eqn:DV; [| discriminate EM].
      apply complete_ends; [exact HC |]. apply (HD _ _ _ _ _ DECL HA DV).
  - intros a v c fl HA SA -> HI HO. destruct HX as [[C _] | (fl' & C & ->)]; [discriminate |]. injection C as <-.
    assert (Q := vdepth_arg n fl c HI). apply IH; [| lia]. destruct HO as [[CH LI] | ->]; [exact (FROM a v CH LI) | lia].
Qed.

(** *** selections *)
Inductive pat_ok (T : types) : str -> pat -> Prop :=
| Pat_ok : forall ty n sig args, ty <> str_string -> declared T ty n sig -> pargs_ok T sig args -> pat_ok T ty (Pat n args)
with pargs_ok (T : types) : list darg -> list (str * pat) -> Prop :=
| Pargs_nil : pargs_ok T [] []
| Pargs_dynamic : forall a sig args, da_static a = false -> pargs_ok T sig args -> pargs_ok T (a :: sig) args
| Pargs_static : forall a sig args p, da_static a = true -> pat_ok T (da_type a) p -> pat_name p <> [] -> pargs_ok T sig args ->
    pargs_ok T (a :: sig) ((da_name a, p) :: args).
Scheme pat_ok_ind2 := Induction for pat_ok Sort Prop with pargs_ok_ind2 := Induction for pargs_ok Sort Prop.
Combined Scheme pat_ok_mutind from pat_ok_ind2, pargs_ok_ind2.
Lemma pat_ok_extends : forall T T', extends T T' ->
  (forall ty p, pat_ok T ty p -> pat_ok T' ty p) /\ (forall sig args, pargs_ok T sig args -> pargs_ok T' sig args).
Proof.
  intros T T' X. apply pat_ok_mutind; intros.
  - econstructor; eauto.
  - constructor.
  - constructor; assumption.
  - constructor; assumption.
Qed.
Lemma means_pat_ok : forall T pattern,
  (forall ty v o, means T pattern ty v o -> forall n oo p, o = OAlg n oo p -> pat_ok T ty p) /\
  (forall pos kws i sig opts sel, means_options T pattern pos kws i sig opts sel -> pargs_ok T sig sel).
Proof.
  intros T pattern. apply means_mutind.
  - discriminate.
  - intros. injection H0 as <- <- <-. econstructor; eauto.
  - constructor.
  - intros. constructor; assumption.
  - intros. constructor; assumption.
  - intros. constructor; try assumption; [eapply H; reflexivity |]. eapply means_named; [apply a0 | exact m].
Qed.
Lemma pargs_keys : forall T sig args, pargs_ok T sig args -> forall k p, In (k, p) args -> In k (map da_name sig).
Proof.
  intros T sig args H. induction H; intros k q HI; [destruct HI | |]; cbn.
  - right. eapply IHpargs_ok; eauto.
  - destruct HI as [HI | HI]; [injection HI as <- _; left; reflexivity | right; eapply IHpargs_ok; eauto].
Qed.
Definition pkws (args : list (str * pat)) : list (str * value) := map (fun a => (fst a, pat_value (snd a))) args.
Lemma pkws_keys : forall T sig args k, pargs_ok T sig args -> In k (map fst (pkws args)) -> In k (map da_name sig).
Proof.
  intros T sig args k H Q. unfold pkws in Q. rewrite map_map in Q. apply in_map_iff in Q. destruct Q as ([k' p] & <- & HI). cbn. eapply pargs_keys; eauto.
Qed.
Lemma pat_value_eq : forall n args, pat_value (Pat n args) = VInv n (mkpos [] ++ mkkws (pkws args)).
Proof. intros. cbn. f_equal. unfold pkws, mkkws. rewrite map_map. reflexivity. Qed.
Lemma pat_value_nonempty : forall p, pat_name p <> [] -> is_empty (pat_value p) = false.
Proof. intros [[| c n] args] H; [cbn in H; congruence | reflexivity]. Qed.
Definition keys_before (done : list (str * pat)) (pre : list darg) : Prop := forall k, In k (map fst (pkws done)) -> In k (map da_name pre).
Lemma NoDup_parts : forall (pre : list darg) a sig, NoDup (map da_name (pre ++ a :: sig)) -> ~ In (da_name a) (map da_name pre) /\ ~ In (da_name a) (map da_name sig).
Proof. intros pre a sig H. rewrite map_app in H. cbn in H. apply NoDup_remove_2 in H. split; intros Q; apply H; apply in_or_app; auto. Qed.
Lemma pkws_app : forall a b, pkws (a ++ b) = pkws a ++ pkws b.
Proof. intros. apply map_app. Qed.
Lemma keys_before_snoc : forall done pre a p, keys_before done pre -> keys_before (done ++ [(da_name a, p)]) (pre ++ [a]).
Proof.
  intros done pre a p K k Q. rewrite pkws_app, map_app in Q. rewrite map_app. apply in_or_app. apply in_app_or in Q. destruct Q as [Q | [<- | []]]; [left; apply K, Q | right; left; reflexivity].
Qed.
Lemma keys_before_weak : forall done pre a, keys_before done pre -> keys_before done (pre ++ [a]).
Proof. intros done pre a K k Q. rewrite map_app. apply in_or_app. left. apply K, Q. Qed.
(** a static option gets what the selection says *)
Lemma pat_assigned : forall T pre a sig done p args i, NoDup (map da_name (pre ++ a :: sig)) -> keys_before done pre -> pargs_ok T sig args ->
  pat_name p <> [] -> assigned [] (pkws (done ++ (da_name a, p) :: args)) i a (pat_value p).
Proof.
  intros T pre a sig done p args i ND K PA PN. split; [apply pat_value_nonempty, PN |]. left. exists (pkws done), (pkws args). rewrite pkws_app. split; [reflexivity |].
  intros Q. destruct (NoDup_parts _ _ _ ND) as [_ N2]. apply N2. eapply pkws_keys; eauto.
Qed.
Lemma pat_means : forall T pattern, consistent T ->
  (forall ty p, pat_ok T ty p -> pattern = true \/ has_defaults T ty p -> exists opts, means T pattern ty (pat_value p) (OAlg (pat_name p) opts p)) /\
  (forall sig args, pargs_ok T sig args -> forall pre done, NoDup (map da_name (pre ++ sig)) -> keys_before done pre ->
    (pattern = true \/
     (forall a, In a sig -> da_static a = false -> da_type a = str_string /\ exists s, s <> [] /\ da_default a = Some (VStr s)) /\
     (forall a k p, In a sig -> da_static a = true -> k = da_name a -> In (k, p) args -> has_defaults T (da_type a) p)) ->
    exists opts, means_options T pattern [] (pkws (done ++ args)) (length pre) sig opts args).
Proof.
  intros T pattern HC. apply pat_ok_mutind.
  - intros ty n sig args HT HD PA IH HP. destruct (declared_find _ _ _ _ HC HD) as (l & doc & _ & _ & ND).
    destruct (IH [] []) as (opts & M); [exact ND | intros k [] | |].
    + destruct HP as [HP | HP]; [left; exact HP |]. right. inversion HP; subst. rewrite (declared_det _ _ _ _ _ HC HD H1). auto.
    + exists opts. rewrite pat_value_eq. cbn [pat_name]. apply Means_call with (sig := sig); auto; [cbn; lia |].
      intros k v Q. eapply pkws_keys; [exact PA |]. apply in_map_iff. exists (k, v). auto.
  - intros pre done ND K HP. exists []. constructor.
  - intros a sig args SA PA IH pre done ND K HP.
    destruct (IH (pre ++ [a]) done) as (opts & M); [rewrite <- app_assoc; exact ND | apply keys_before_weak, K | |].
    + destruct HP as [HP | [HP1 HP2]]; [left; exact HP | right]. split; intros; [apply HP1; auto; right; assumption | eapply HP2; eauto; right; assumption].
    + rewrite app_length in M. cbn in M. rewrite Nat.add_1_r in M. destruct pattern eqn:PP.
      * exists opts. apply Options_left_out; auto.
      * destruct HP as [C | [HP1 _]]; [discriminate |]. destruct (HP1 a (or_introl eq_refl) SA) as (TS & s & SN & DV).
        exists ((da_name a, OStr s) :: opts). apply Options_dynamic with (v := VStr s); auto; [| rewrite TS; constructor].
        split; [destruct s; [congruence | reflexivity] |]. right. right. destruct (NoDup_parts _ _ _ ND) as [N1 N2].
        split; [| split; [destruct (length pre); reflexivity | exact DV]].
        rewrite pkws_app, map_app. intros Q. apply in_app_or in Q. destruct Q as [Q | Q]; [apply N1, K, Q | apply N2; eapply pkws_keys; eauto].
  - intros a sig args p SA _ IHp PN PA IH pre done ND K HP.
    destruct (IH (pre ++ [a]) (done ++ [(da_name a, p)])) as (opts & M); [rewrite <- app_assoc; exact ND | apply keys_before_snoc, K | |].
    + destruct HP as [HP | [HP1 HP2]]; [left; exact HP | right]. split; intros; [apply HP1; auto; right; assumption | eapply HP2; eauto; right; assumption].
    + rewrite app_length in M. cbn in M. rewrite Nat.add_1_r in M. rewrite <- app_assoc in M. cbn [app] in M.
      destruct IHp as (oo & MP).
      * destruct HP as [HP | [_ HP2]]; [left; exact HP | right]. eapply HP2; [left; reflexivity | exact SA | reflexivity | left; reflexivity].
      * eexists. eapply Options_static; [exact SA | | exact MP | exact M]. eapply pat_assigned; eauto.
Qed.
Lemma pat_selects : forall T pattern, consistent T ->
  (forall ty v o, means T pattern ty v o -> forall p, pat_ok T ty p -> v = pat_value p -> exists oo, o = OAlg (pat_name p) oo p) /\
  (forall pos kws i sig opts sel, means_options T pattern pos kws i sig opts sel ->
     forall args pre done, pargs_ok T sig args -> NoDup (map da_name (pre ++ sig)) -> keys_before done pre -> pos = [] -> kws = pkws (done ++ args) -> sel = args).
Proof.
  intros T pattern HC. apply means_mutind.
  - intros s p _ E. destruct p. discriminate.
  - intros ty n pos kws sig opts sel HT HD L K _ IH [n' args] PO E. rewrite pat_value_eq in E. injection E as <- EA. inversion PO; subst.
    assert (sig0 = sig) by (eapply declared_det; eassumption). subst sig0. destruct (declared_find _ _ _ _ HC HD) as (l & doc & _ & _ & ND).
    assert (EP : pos = [] /\ kws = pkws args).
    { destruct pos as [| v pos]; [| destruct args; discriminate]. split; [reflexivity |]. cbn in EA. revert EA. generalize (pkws args). clear.
      induction kws as [| [k v] kws IH]; intros [| [k' v'] r] E; try discriminate; [reflexivity |]. cbn in E. injection E as <- <- E. f_equal. apply IH, E. }
    destruct EP as [-> ->]. exists opts. cbn [pat_name]. rewrite (IH args [] []); auto. intros k [].
  - intros pos kws i args pre done PA _ _ _ _. inversion PA. reflexivity.
  - intros pos kws i a sig opts sel PP SA _ IH args pre done PA ND K -> ->. inversion PA; subst; [| congruence].
    apply (IH args (pre ++ [a]) done); auto; [rewrite <- app_assoc; exact ND | apply keys_before_weak, K].
  - intros pos kws i a sig opts sel v o PP SA AS _ _ _ IH args pre done PA ND K -> ->. inversion PA; subst; [| congruence].
    apply (IH args (pre ++ [a]) done); auto; [rewrite <- app_assoc; exact ND | apply keys_before_weak, K].
  - intros pos kws i a sig opts sel v n oo p SA AS _ IHv _ IH args pre done PA ND K -> ->. inversion PA as [| ? ? ? C | ? ? args' q SQ PQ NQ PA']; subst; [congruence |].
    assert (AQ := pat_assigned T pre a sig done q args' i ND K PA' NQ).
    assert (EV : v = pat_value q).
    { destruct AS as [_ AS], AQ as [_ AQ].
      assert (IN : In (da_name a) (map fst (pkws (done ++ (da_name a, q) :: args')))) by (rewrite pkws_app, map_app; apply in_or_app; right; left; reflexivity).
      destruct AS as [AS | [[C _] | [C _]]]; [| contradiction | contradiction]. destruct AQ as [AQ | [[C _] | [C _]]]; [| contradiction | contradiction]. eapply last_given_det; eassumption. }
    destruct (IHv q PQ EV) as (oo' & E). injection E as _ _ ->. f_equal.
    apply (IH args' (pre ++ [a]) (done ++ [(da_name a, q)])); auto; [rewrite <- app_assoc; exact ND | apply keys_before_snoc, K | rewrite <- app_assoc; reflexivity].
Qed.

(** *** printing a selection *)
Lemma pat_ind2 : forall P : pat -> Prop, (forall n args, (forall k q, In (k, q) args -> P q) -> P (Pat n args)) -> forall p, P p.
Proof.
  intros P H. fix IH 1. intros [n args]. apply H. induction args as [| [k q] args IHa]; intros k0 q0 HI; [destruct HI |].
  destruct HI as [E | HI]; [| eapply IHa; exact HI]. injection E as _ <-. apply IH.
Qed.
Lemma pat_print : forall p, print_pat p = print_value (pat_value p).
Proof.
  induction p as [n l IH] using pat_ind2.
  assert (G : forall l : list (str * pat), (forall k q, In (k, q) l -> print_pat q = print_value (pat_value q)) ->
    map (fun '(k, q) => k ++ [32; 61; 32] ++ print_pat q) l =
    map (fun '(kw, v) => match kw with Some k => k ++ [32; 61; 32] ++ print_value v | None => print_value v end)
      (map (fun a => (Some (fst a), pat_value (snd a))) l)).
  { intros l0 H. rewrite map_map. apply map_ext_in. intros [k q] HI. cbn [fst snd]. rewrite (H k q HI). reflexivity. }
  specialize (G l IH). destruct l as [| a l]; [reflexivity |]. cbn [print_pat pat_value print_value] in *. rewrite G. reflexivity.
Qed.

(** *** the builder *)
Lemma eval_args_fixed : forall ev (P : value -> Prop), (forall v ty fixed o, P fixed -> is_empty fixed = false -> ev v ty fixed = EOk o -> (exists s, o = OStr s) \/ exists n oo, o = OAlg n oo (selection_of fixed)) ->
  forall args names sig fl rs rd fx rs' rd', (forall c, In c fl -> P (snd c) /\ is_empty (snd c) = false) ->
  eval_args ev false args names sig (Some fl) rs rd = EOk (fx, rs', rd') ->
  exists fl1 fl2, fl = fl1 ++ fl2 /\ fx = Some fl2 /\ rs' = rs ++ map (fun a => (keyword a, selection_of (snd a))) fl1.
Proof.
  intros ev P HV args names. induction sig as [| a sig IH]; intros fl rs rd fx rs' rd' HF H; cbn [eval_args] in H.
  - injection H as <- <- <-. exists [], fl. cbn. rewrite app_nil_r. auto.
  - cbn [andb] in H. destruct (match last_index names (da_name a) 0 None with Some j => _ | None => _ end) as [v | |]; [| discriminate | discriminate]. cbn [ebind] in H.
    destruct (da_static a) eqn:SA.
    + destruct fl as [| c fl]; [discriminate |]. destruct (list_eqb (keyword c) (da_name a)) eqn:KE; [| discriminate]. cbn [ebind] in H. apply list_eqb_eq in KE.
      set (w := match last_index names (da_name a) 0 None with Some _ => v | None => snd c end) in H. destruct (is_empty w); [discriminate |].
      destruct (ev w (da_type a) (snd c)) as [o | |] eqn:E; [| discriminate | discriminate]. cbn [ebind] in H.
      destruct (HF c (or_introl eq_refl)) as [PC EC]. destruct (HV _ _ _ _ PC EC E) as [(s & ->) | (n & oo & ->)]; [discriminate |]. cbn [ebind] in H.
      assert (PN : pat_name (selection_of (snd c)) <> []) by (destruct (snd c) as [[| ? ?] | [| ? ?] ?]; try discriminate EC; discriminate).
      destruct (pat_name (selection_of (snd c))) as [| c0 s0]; [congruence |].
      apply IH in H; [| intros d HD; apply HF; right; exact HD]. destruct H as (fl1 & fl2 & -> & -> & ->). exists (c :: fl1), fl2. split; [reflexivity |]. split; [reflexivity |].
      rewrite <- app_assoc. cbn. rewrite KE. reflexivity.
    + cbn [ebind] in H. destruct (is_empty v); [discriminate |]. destruct (ev v (da_type a) no_value) as [o | |]; [| discriminate | discriminate]. cbn [ebind] in H.
      apply IH in H; [exact H | exact HF].
Qed.
Inductive named_value : value -> Prop :=
| Named : forall n args, n <> [] -> (forall c, In c args -> named_value (snd c)) -> named_value (VInv n args).
Lemma named_nonempty : forall v, named_value v -> is_empty v = false.
Proof. intros v H. inversion H; subst. destruct n; [congruence | reflexivity]. Qed.
Lemma eval_fixed : forall fuel T v ty fixed o, named_value fixed -> eval fuel T false v ty fixed = EOk o ->
  (exists s, o = OStr s) \/ exists n oo, o = OAlg n oo (selection_of fixed).
Proof.
  induction fuel as [| f IH]; intros T v ty fixed o NF H; [discriminate |]. rewrite eval_S in H. destruct (list_eqb ty str_string).
  { destruct v; [| discriminate]. injection H as <-. left. eauto. }
  right. inversion NF as [fn fl NN NC]; subst. destruct fn as [| c0 fn]; [congruence |]. cbn [is_empty] in H. destruct v as [s | n args]; [discriminate |].
  destruct (list_eqb (c0 :: fn) n) eqn:FN; [| discriminate]. apply list_eqb_eq in FN. subst n. cbn [ebind] in H.
  destruct (ty_find T ty) as [l |]; [| discriminate]. destruct (find_alg l (c0 :: fn) None) as [d |] eqn:FA; [| discriminate]. cbn [lift ebind] in H.
  destruct (bind_names (dn_args d) args true 0) as [names |]; [| discriminate]. cbn [lift ebind] in H.
  destruct (eval_args _ _ _ _ _ _ _ _) as [[[fx rs] rd] | |] eqn:EA; [| discriminate | discriminate]. cbn [ebind] in H.
  apply (eval_args_fixed _ named_value) in EA; [| intros; eapply IH; eauto | intros c HC; split; [apply NC, HC | apply named_nonempty, NC, HC]].
  destruct EA as (fl1 & fl2 & -> & -> & ->). destruct fl2; [| discriminate]. injection H as <-.
  apply find_alg_some in FA. destruct FA as [FA | [_ DN]]; [discriminate |]. rewrite DN. exists (c0 :: fn), rd. cbn [selection_of]. rewrite app_nil_r. reflexivity.
Qed.
