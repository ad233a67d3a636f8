(** C51: what an algorithm string selects. *)
From Verif Require Import Base AlgParser AlgSyntax PropAlgParser AlgEval AlgEvalSpec AlgEvalProofs AlgRegProofs PatOrderProofs.
From Coq Require String Ascii.
Import String.StringSyntax.
Local Open Scope N_scope.

Lemma reachable_inv : forall R, reachable R -> table_ok (r_types R) /\ (forall p i, In (p, i) (r_impl R) -> pat_ok (r_types R) (r_root R) p) /\ NoDup (map fst (r_impl R)).
Proof.
  intros R H. induction H as [root | R m i fuel R' HR IH HB HE].
  - cbn. split; [split; [intros ty l E; discriminate | intros ty n sig a v (l & doc & E & _); discriminate] |]. split; [intros p i [] | constructor].
  - destruct IH as (HT & HP & ND). unfold register in HE. destruct (gather (r_types R) m) as [T |] eqn:G; [| discriminate]. cbn [lift ebind] in HE.
    destruct (gather_table _ _ _ HT HB G) as (HT' & X & _). unfold pattern_eval in HE.
    destruct (eval fuel T true (static_value m) (r_root R) no_value) as [o | |] eqn:E; [| discriminate | discriminate]. cbn [ebind] in HE.
    destruct o as [s | n oo p]; [discriminate |]. cbn [sel_of ebind] in HE. destruct (impl_find (r_impl R) p) eqn:IF; [discriminate |]. injection HE as <-. cbn.
    apply eval_sound in E; [| apply HT']. destruct (means_pat_ok T true) as [MP _]. specialize (MP _ _ _ E _ _ _ eq_refl).
    split; [exact HT' |]. split.
    + intros q j HI. apply in_app_or in HI. destruct HI as [HI | [HI | []]]; [| injection HI as <- _; exact MP].
      eapply pat_ok_extends; [exact X |]. eapply HP; exact HI.
    + rewrite map_app. apply NoDup_snoc; [exact ND |]. intros Q. apply in_map_iff in Q. destruct Q as ((q & j) & Q1 & Q2). cbn in Q1. subst q.
      clear - IF Q2. induction (r_impl R) as [| [q k] l IH]; [destruct Q2 |]. cbn in IF. destruct (pat_eqb q p) eqn:E; [discriminate |].
      destruct Q2 as [Q2 | Q2]; [injection Q2 as -> ->; rewrite (proj2 (pat_eqb_eq p p) eq_refl) in E; discriminate | exact (IH IF Q2)].
Qed.
Lemma impl_find_in : forall l p i, impl_find l p = Some i -> In (p, i) l.
Proof.
  induction l as [| [q k] l IH]; intros p i H; [discriminate |]. cbn in H. destruct (pat_eqb q p) eqn:E.
  - apply pat_eqb_eq in E. injection H as <-. subst. left. reflexivity.
  - right. apply IH, H.
Qed.
Lemma impl_find_nodup : forall l p i, NoDup (map fst l) -> In (p, i) l -> impl_find l p = Some i.
Proof.
  induction l as [| [q k] l IH]; intros p i ND H; [destruct H |]. cbn in ND |- *. inversion ND; subst. destruct H as [H | H].
  - injection H as -> ->. rewrite (proj2 (pat_eqb_eq p p) eq_refl). reflexivity.
  - destruct (pat_eqb q p) eqn:E; [| apply IH; assumption]. apply pat_eqb_eq in E. subst q. exfalso. apply H2. apply in_map_iff. exists (p, i). auto.
Qed.

(** C51. Whatever algorithms a program registers: no type ends up with two algorithms of one name, and no algorithm with two
    options of one name. *)
Theorem registry_consistent : forall R, reachable R -> consistent (r_types R).
Proof. intros R H. apply (reachable_inv R H). Qed.
Print Assumptions registry_consistent.

(** C51. Evaluation ends on every syntax tree ... *)
Theorem evaluation_ends : forall R, reachable R -> forall pattern v ty fixed,
  exists F r, r <> EFuel /\ forall fuel, (F <= fuel)%nat -> eval fuel (r_types R) pattern v ty fixed = r.
Proof.
  intros R H pattern v ty fixed. destruct (reachable_inv R H) as (HT & _).
  destruct (all_end _ pattern HT (Nat.max (vdepth v) (vdepth fixed)) v ty fixed ltac:(lia) ltac:(lia)) as (F & HF). exists F. eexists. split; [exact HF |].
  intros fuel L. apply eval_mono; assumption.
Qed.
Print Assumptions evaluation_ends.
(** ... with exactly the value it means: each option gets what was last given for it by keyword, else what was given at its position, else its
    default; the rest is an error. *)
Theorem evaluation_exact : forall R, reachable R -> forall pattern v ty o,
  means (r_types R) pattern ty v o <-> exists F, forall fuel, (F <= fuel)%nat -> eval fuel (r_types R) pattern v ty no_value = EOk o.
Proof.
  intros R H pattern v ty o. destruct (reachable_inv R H) as ((HC & _) & _). split.
  - intros M. destruct (eval_complete _ pattern HC) as [K _]. exact (K _ _ _ M).
  - intros (F & HF). eapply eval_sound; [exact HC | apply (HF F); lia].
Qed.
Print Assumptions evaluation_exact.
Theorem evaluation_rejects : forall R, reachable R -> forall pattern v ty,
  (forall o, ~ means (r_types R) pattern ty v o) -> exists F, forall fuel, (F <= fuel)%nat -> eval fuel (r_types R) pattern v ty no_value = EErr.
Proof.
  intros R H pattern v ty HN. destruct (evaluation_ends R H pattern v ty no_value) as (F & r & HR & HF). destruct r as [o | |]; [| eauto | congruence].
  exfalso. apply (HN o). apply (evaluation_exact R H). eauto.
Qed.
Print Assumptions evaluation_rejects.
Theorem meaning_unique : forall R, reachable R -> forall pattern v ty o o',
  means (r_types R) pattern ty v o -> means (r_types R) pattern ty v o' -> o = o'.
Proof.
  intros R H pattern v ty o o' M M'. apply (evaluation_exact R H) in M, M'. destruct M as (F & HF), M' as (F' & HF').
  specialize (HF (Nat.max F F') ltac:(lia)). specialize (HF' (Nat.max F F') ltac:(lia)). congruence.
Qed.
Print Assumptions meaning_unique.

(** C51. The driver picks an implementation only if the text was parsed, means something, and exactly that selection was registered for
    the implementation. *)
Theorem select_exact : forall R, reachable R -> forall pf fuel text o i, select pf fuel R text = EOk (o, i) ->
  exists v cur n oo p, parse_text pf text = POk v cur /\ means (r_types R) false (r_root R) v o /\ o = OAlg n oo p /\ In (p, i) (r_impl R).
Proof.
  intros R H pf fuel text o i HS. unfold select, parse_algorithm_id in HS. destruct (parse_text pf text) as [v cur | | |]; try discriminate.
  unfold cl_eval in HS. destruct (eval fuel (r_types R) false v (r_root R) no_value) as [o' | |] eqn:E; [| discriminate | discriminate]. cbn [ebind] in HS.
  destruct o' as [s | n oo p]; [discriminate |]. cbn [sel_of ebind select_algorithm] in HS. unfold select_algorithm in HS. cbn [sel_of ebind] in HS.
  destruct (impl_find (r_impl R) p) as [j |] eqn:IF; [| discriminate]. cbn in HS. injection HS as <- <-.
  exists v, cur, n, oo, p. split; [reflexivity |]. split; [eapply eval_sound; [apply (reachable_inv R H) | exact E] |]. split; [reflexivity | apply impl_find_in, IF].
Qed.
Print Assumptions select_exact.

Definition plain_name (s : str) : Prop := identifier s /\ ~ boolean s.
Lemma pat_writable : forall p, names_ok plain_name p -> writable (pat_value p).
Proof.
  induction p as [n args IH] using pat_ind2. intros H. inversion H as [? ? HN HA]; subst. cbn. constructor; [apply HN | apply HN | |].
  - intros k v Q. apply in_map_iff in Q. destruct Q as ((k' & q) & Q & HI). cbn in Q. injection Q as <- _. apply (HA k' q HI).
  - intros k v Q. apply in_map_iff in Q. destruct Q as ((k' & q) & Q & HI). cbn in Q. injection Q as _ <-. apply (IH k' q HI). apply (HA k' q HI).
Qed.
(** C51. The id that is printed for a registered algorithm selects that algorithm and no other; it does select it if the options that are left out
    have defaults. *)
Theorem registered_id_selects : forall R, reachable R -> forall p i, In (p, i) (r_impl R) -> names_ok plain_name p ->
  (forall pf fuel o j, enough (print_pat p) pf -> select pf fuel R (print_pat p) = EOk (o, j) -> j = i) /\
  (has_defaults (r_types R) (r_root R) p ->
   exists o F, forall pf fuel, enough (print_pat p) pf -> (F <= fuel)%nat -> select pf fuel R (print_pat p) = EOk (o, i)).
Proof.
  intros R H p i HI HN. destruct (reachable_inv R H) as ((HC & _) & HP & ND). assert (PO := HP _ _ HI).
  assert (PARSE : forall pf, enough (print_pat p) pf -> exists cur, parse_text pf (print_pat p) = POk (pat_value p) cur).
  { intros pf HF. rewrite pat_print in *. apply print_parse; [apply pat_writable, HN | exact HF]. }
  split.
  - intros pf fuel o j HF HS. destruct (select_exact R H _ _ _ _ _ HS) as (v & cur & n & oo & q & EP & M & -> & HJ).
    destruct (PARSE pf HF) as (cur' & EP'). rewrite EP' in EP. injection EP as <- <-.
    destruct (pat_selects (r_types R) false HC) as [S1 _]. destruct (S1 _ _ _ M p PO eq_refl) as (oo' & E). injection E as _ _ ->.
    assert (A := impl_find_nodup _ _ _ ND HI). assert (B := impl_find_nodup _ _ _ ND HJ). congruence.
  - intros HD. destruct (pat_means (r_types R) false HC) as [S1 _]. destruct (S1 _ _ PO (or_intror HD)) as (opts & M).
    apply (evaluation_exact R H) in M. destruct M as (F & HF). eexists (OAlg (pat_name p) opts p), F. intros pf fuel H1 H2. destruct (PARSE pf H1) as (cur & EP).
    unfold select, parse_algorithm_id, cl_eval. rewrite EP, HF by exact H2. cbn [ebind sel_of]. unfold select_algorithm. cbn [sel_of ebind].
    rewrite (impl_find_nodup _ _ _ ND HI). reflexivity.
Qed.
Print Assumptions registered_id_selects.

Lemma built_static_named : forall m, built m -> (forall s, within s m -> m_name s <> []) -> named_value (static_value m).
Proof.
  intros m H. induction H; intros HN.
  - constructor; [exact (HN _ (W_self _)) | intros c []].
  - unfold opt_templated in H1. apply add_opt_inv in H1. destruct H1 as (_ & _ & ES & EA & EN & _). unfold static_value. rewrite EN, EA.
    assert (N1 : named_value (static_value m)). { apply IHbuilt1. intros s HW. inversion HW; subst; [rewrite <- EN; apply HN, W_self |]. apply HN. eapply W_sub; [eassumption |]. rewrite ES. apply in_or_app. auto. }
    assert (N2 : named_value (static_value t)). { apply IHbuilt2. intros s HW. apply HN. eapply W_sub; [exact HW |]. rewrite ES. apply in_or_app. right. left. reflexivity. }
    inversion N1 as [n0 a0 Q1 Q2]; subst. constructor; [exact Q1 |]. intros c HC. apply in_app_or in HC. destruct HC as [HC | [<- | []]]; [apply Q2, HC | exact N2].
  - unfold opt_templated_default in H2. apply add_opt_inv in H2. destruct H2 as (_ & _ & ES & EA & EN & _). unfold static_value. rewrite EN, EA.
    assert (N1 : named_value (static_value m)). { apply IHbuilt1. intros s HW. inversion HW; subst; [rewrite <- EN; apply HN, W_self |]. apply HN. eapply W_sub; [eassumption |]. rewrite ES. apply in_or_app. auto. }
    assert (N2 : named_value (static_value t)). { apply IHbuilt2. intros s HW. apply HN. eapply W_sub; [exact HW |]. rewrite ES. apply in_or_app. right. left. reflexivity. }
    inversion N1 as [n0 a0 Q1 Q2]; subst. constructor; [exact Q1 |]. intros c HC. apply in_app_or in HC. destruct HC as [HC | [<- | []]]; [apply Q2, HC | exact N2].
  - unfold opt_dynamic in H0. apply add_opt_inv in H0. destruct H0 as (_ & _ & ES & EA & EN & _). unfold static_value. rewrite EN, EA. rewrite app_nil_r in *.
    apply IHbuilt. intros s HW. inversion HW; subst; [rewrite <- EN; apply HN, W_self |]. apply HN. eapply W_sub; [eassumption |]. rewrite ES. assumption.
  - unfold opt_compressor in H0. apply add_opt_inv in H0. destruct H0 as (_ & _ & ES & EA & EN & _). unfold static_value. rewrite EN, EA. rewrite app_nil_r in *.
    apply IHbuilt. intros s HW. inversion HW; subst; [rewrite <- EN; apply HN, W_self |]. apply HN. eapply W_sub; [eassumption |]. rewrite ES. assumption.
Qed.
(** C51. The template arguments of a type are its static options, one each and in order of declaration. *)
Theorem template_arguments_static : forall m, built m ->
  map fst (m_sargs m) = map (fun a => Some (da_name a)) (filter da_static (m_opts m)).
Proof.
  intros m H. induction H; [reflexivity | | | |].
  1: unfold opt_templated in H1. 2: unfold opt_templated_default in H2. 3: unfold opt_dynamic in H0. 4: unfold opt_compressor in H0.
  all: match goal with Q : add_opt _ _ _ _ = Some _ |- _ => apply add_opt_inv in Q; destruct Q as (_ & -> & _ & -> & _) end;
    rewrite filter_app, !map_app; cbn; rewrite ?app_nil_r; first [exact IHbuilt | exact (f_equal (fun l => l ++ [_]) IHbuilt1)].
Qed.
Print Assumptions template_arguments_static.

(** C51. Creating an algorithm of a given C++ type from an option string: either the string is refused, or the options are for
    exactly the template arguments of the type. *)
Theorem builder_selection : forall T m options pf fuel o, built m -> (forall s, within s m -> m_name s <> []) ->
  builder_env pf fuel T m options = EOk o -> exists oo, o = OAlg (m_name m) oo (selection_of (static_value m)).
Proof.
  intros T m options pf fuel o HB HN H. unfold builder_env in H. destruct (gather T m) as [T' |]; [| discriminate]. cbn [lift ebind] in H.
  destruct (parse_text pf _) as [v cur | | |]; try discriminate. unfold cl_eval in H.
  destruct (eval fuel T' false v (m_type m) (static_value m)) as [o' | |] eqn:E; [| discriminate | discriminate]. cbn [ebind] in H.
  destruct (eval_fixed _ _ _ _ _ _ (built_static_named m HB HN) E) as [(s & ->) | (n & oo & ->)]; [discriminate |]. cbn in H. injection H as <-. exists oo. f_equal.
  destruct fuel as [| f]; [discriminate |]. rewrite eval_S in E. destruct (list_eqb (m_type m) str_string); [destruct v; discriminate |].
  destruct (if is_empty (static_value m) then _ else _) as [fx | |] eqn:FX; [| discriminate | discriminate]. cbn [ebind] in E.
  destruct (ty_find T' (m_type m)) as [l |]; [| destruct v; discriminate]. destruct v as [s | n' args]; [discriminate |].
  destruct (find_alg l n' None) as [d |] eqn:FA; [| discriminate]. cbn [lift ebind] in E. destruct (bind_names (dn_args d) args true 0); [| discriminate]. cbn [lift ebind] in E.
  destruct (eval_args _ _ _ _ _ _ _ _) as [[[fx' rs] rd] | |]; [| discriminate | discriminate]. cbn [ebind] in E.
  destruct fx' as [[| ? ?] |]; [| discriminate |]; injection E; intros; subst; assumption.
Qed.
Print Assumptions builder_selection.

(** C51. Selections are compared by a strict total order whose equivalence is equality, so the map of implementations finds what was put into it. *)
Theorem pattern_order : forall p q r,
  pat_ltb p p = false /\ (pat_ltb p q = true -> pat_ltb q r = true -> pat_ltb p r = true) /\
  (p = q \/ pat_ltb p q = true \/ pat_ltb q p = true) /\ (pat_eqb p q = true <-> p = q).
Proof.
  intros p q r. unfold pat_ltb. rewrite !pat_lt2_cmp. split; [rewrite (proj2 (pat_cmp_eq p p) eq_refl); reflexivity |]. split; [| split; [| apply pat_eqb_eq]].
  - intros H1 H2. rewrite (pat_cmp_trans p q r); [reflexivity | |]; [destruct (pat_cmp p q) | destruct (pat_cmp q r)]; try discriminate; reflexivity.
  - rewrite (pat_cmp_sym p q). destruct (pat_cmp p q) eqn:E; cbn; [apply pat_cmp_eq in E | |]; auto.
Qed.
Print Assumptions pattern_order.

(** *** A registry *)
Definition B (s : String.string) : str := map Ascii.N_of_ascii (String.list_ascii_of_string s).
Delimit Scope string_scope with string.
Local Notation "'S!' s" := (B s%string) (at level 0, s at level 0).
Definition x_bit : meta := meta_new (S! "coder") (S! "bit") [].
Definition x_huff : meta := meta_new (S! "coder") (S! "huff") [].
Definition x_lz (c : meta) : option meta :=
  do m <- opt_templated_default (meta_new (S! "compressor") (S! "lz") []) (S! "coder") c x_bit; opt_dynamic m (S! "threshold") (Some (S! "5")).
Definition x_pre : option meta :=
  do m <- opt_dynamic (meta_new (S! "compressor") (S! "pre") []) (S! "prefix") (Some []); opt_dynamic m (S! "n") None.
Definition x_registry : eres registry :=
  edo lz1 <- lift (x_lz x_bit); edo lz2 <- lift (x_lz x_huff); edo pre <- lift x_pre;
  edo R <- register 10 (Reg (S! "compressor") [] []) lz1 1;
  edo R <- register 10 R lz2 2;
  EOk R.
Lemma x_lz_built : forall c m, built c -> x_lz c = Some m -> built m.
Proof.
  intros c m HC H. unfold x_lz in H. destruct (opt_templated_default _ _ _ _) as [m1 |] eqn:E; [| discriminate]. cbn [obind] in H.
  eapply B_dynamic; [| exact H]. eapply B_default; [constructor | exact HC | | exact E]. constructor.
Qed.
Example registry_ex : exists R, x_registry = EOk R /\ reachable R /\
  (* the ids *)
  map (fun pi => (print_pat (fst pi), snd pi)) (r_impl R) = [(S! "lz(coder = bit)", 1); (S! "lz(coder = huff)", 2)] /\
  (* keyword beats position, the last keyword beats the others *)
  select 300 10 R (S! "lz(huff, '7', threshold = '8', threshold = '9')") =
    EOk (OAlg (S! "lz") [(S! "coder", OAlg (S! "huff") [] (Pat (S! "huff") [])); (S! "threshold", OStr (S! "9"))] (Pat (S! "lz") [(S! "coder", Pat (S! "huff") [])]), 2) /\
  (* defaults *)
  select 300 10 R (S! "lz") =
    EOk (OAlg (S! "lz") [(S! "coder", OAlg (S! "bit") [] (Pat (S! "bit") [])); (S! "threshold", OStr (S! "5"))] (Pat (S! "lz") [(S! "coder", Pat (S! "bit") [])]), 1) /\
  (* refused: position behind keyword, too many, unknown keyword, unknown algorithm, wrong kind *)
  select 300 10 R (S! "lz(coder = bit, '7')") = EErr /\ select 300 10 R (S! "lz(bit, '7', '8')") = EErr /\ select 300 10 R (S! "lz(cover = bit)") = EErr /\
  select 300 10 R (S! "lz(gamma)") = EErr /\ select 300 10 R (S! "lz('bit')") = EErr.
Proof.
  eexists. split; [vm_compute; reflexivity |]. split; [| vm_compute; repeat split; reflexivity].
  eapply Reach_register with (fuel := 10%nat) (i := 2).
  - eapply Reach_register with (fuel := 10%nat) (i := 1).
    + apply (Reach_new (S! "compressor")).
    + eapply (x_lz_built x_bit); [constructor | reflexivity].
    + vm_compute. reflexivity.
  - eapply (x_lz_built x_huff); [constructor | reflexivity].
  - vm_compute. reflexivity.
Qed.
(** the hypotheses of [registered_id_selects] and of [builder_selection] *)
Example registered_id_ex : exists R p i, x_registry = EOk R /\ In (p, i) (r_impl R) /\ names_ok plain_name p /\ has_defaults (r_types R) (r_root R) p.
Proof.
  eexists _, (Pat (S! "lz") [(S! "coder", Pat (S! "huff") [])]), 2. split; [vm_compute; reflexivity |]. split; [right; left; reflexivity |].
  assert (ID : forall s, (exists c r, s = c :: r /\ letter c /\ Forall (fun c => letter c \/ digit c) r) -> s <> str_true -> s <> str_false -> plain_name s).
  { intros s H H1 H2. split; [exact H | intros [C | C]; contradiction]. }
  assert (LET : forall s, forallb (fun c => (97 <=? c) && (c <=? 122)) s = true -> Forall (fun c => letter c \/ digit c) s).
  { intros s H. apply Forall_forall. intros c HI. rewrite forallb_forall in H. specialize (H c HI). left. right. left. lia. }
  split.
  - constructor; [apply ID; [eexists _, _; split; [reflexivity |]; split; [right; left; vm_compute; split; discriminate | apply LET; reflexivity] | discriminate | discriminate] |].
    intros k p [Q | []]. injection Q as <- <-. split; [apply ID; [eexists _, _; split; [reflexivity |]; split; [right; left; vm_compute; split; discriminate | apply LET; reflexivity] | discriminate | discriminate] |].
    constructor; [apply ID; [eexists _, _; split; [reflexivity |]; split; [right; left; vm_compute; split; discriminate | apply LET; reflexivity] | discriminate | discriminate] |].
    intros k p [].
  - eapply Has_defaults.
    + eexists _, _. split; [reflexivity |]. left. reflexivity.
    + intros a [<- | [<- | []]] SA; [discriminate SA |]. split; [reflexivity |]. eexists. split; [| reflexivity]. discriminate.
    + intros a k p [<- | [<- | []]] SA -> [Q | []]; [| discriminate SA]. injection Q as <-.
      eapply Has_defaults; [eexists _, _; split; [reflexivity |]; right; left; reflexivity | intros a [] | intros a k p []].
Qed.
Example builder_ex : exists m, x_lz x_huff = Some m /\ built m /\ (forall s, within s m -> m_name s <> []) /\
  builder_env 300 10 [] m (S! "threshold = '8'") =
    EOk (OAlg (S! "lz") [(S! "coder", OAlg (S! "huff") [] (Pat (S! "huff") [])); (S! "threshold", OStr (S! "8"))] (Pat (S! "lz") [(S! "coder", Pat (S! "huff") [])])) /\
  builder_env 300 10 [] m (S! "bit") = EErr.
Proof.
  eexists. split; [reflexivity |]. split; [eapply (x_lz_built x_huff); [constructor | reflexivity] |]. split; [| split; vm_compute; reflexivity].
  intros s HW. inversion HW as [| s0 t m0 HW1 HI]; subst; [discriminate |]. destruct HI as [<- | [<- | []]]; inversion HW1 as [| s1 t1 m1 HW2 HI2]; subst; try discriminate; destruct HI2.
Qed.

(** C51, what cannot be said: the empty string is not a value for an option, neither as default nor when it is given. *)
Theorem empty_option_refuted : exists m R, x_pre = Some m /\ built m /\
  register 10 (Reg (S! "compressor") [] []) m 7 = EOk R /\ reachable R /\
  select 300 10 R (S! "pre('a', '1')") =
    EOk (OAlg (S! "pre") [(S! "prefix", OStr (S! "a")); (S! "n", OStr (S! "1"))] (Pat (S! "pre") []), 7) /\
  select 300 10 R (S! "pre(n = '1')") = EErr /\ select 300 10 R (S! "pre('', '1')") = EErr.
Proof.
  eexists _, _. split; [reflexivity |].
  assert (HB : forall m, x_pre = Some m -> built m).
  { intros m H. unfold x_pre in H. destruct (opt_dynamic (meta_new _ _ _) _ _) as [m1 |] eqn:E; [| discriminate]. cbn [obind] in H.
    eapply B_dynamic; [| exact H]. eapply B_dynamic; [constructor | exact E]. }
  split; [apply HB; reflexivity |]. split; [vm_compute; reflexivity |]. split; [| vm_compute; repeat split; reflexivity].
  eapply Reach_register with (fuel := 10%nat) (i := 7); [apply (Reach_new (S! "compressor")) | apply HB; reflexivity | vm_compute; reflexivity].
Qed.
Print Assumptions empty_option_refuted.
