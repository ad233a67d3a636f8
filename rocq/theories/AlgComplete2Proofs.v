From Verif Require Import Base AlgParser AlgSyntax AlgListProofs AlgSoundProofs AlgCompleteProofs.
Local Open Scope N_scope.

(** *** Leading blanks do not matter *)
Lemma lpeek_dw : forall acc r, acc 0 = false -> lpeek acc (drop_ws r) = lpeek acc r.
Proof.
  intros acc r A. unfold lpeek. destruct r as [| c r]; [reflexivity |].
  assert (D := drop_ws_idem (c :: r)). destruct (drop_ws (c :: r)) as [| x q]; [cbn [hd]; rewrite A; reflexivity |].
  rewrite D. reflexivity.
Qed.
Lemma lchar_dw : forall a r, a <> 0 -> lchar (ch a) (drop_ws r) = lchar (ch a) r.
Proof. intros a r A. unfold lchar. rewrite lpeek_dw; [reflexivity |]. unfold ch. apply N.eqb_neq. congruence. Qed.
Lemma lchain_dw : forall f v r, lchain f v (drop_ws r) = lchain f v r.
Proof. intros [| f] v r; [reflexivity |]. cbn [lchain]. rewrite lchar_dw by discriminate. reflexivity. Qed.
Lemma lsingle_dw : forall f al r, lsingle f al (drop_ws r) = lsingle f al r.
Proof. intros [| f] al r; [reflexivity |]. cbn [lsingle]. rewrite drop_ws_idem. reflexivity. Qed.
Lemma lvalue_dw : forall f al r, lvalue f al (drop_ws r) = lvalue f al r.
Proof. intros [| f] al r; [reflexivity |]. cbn [lvalue]. rewrite lsingle_dw. reflexivity. Qed.
Lemma largs_dw : forall f b r, largs f b (drop_ws r) = largs f b r.
Proof. intros [| f] b r; [reflexivity |]. cbn [largs]. rewrite drop_ws_idem. reflexivity. Qed.
Lemma lident_dw : forall r, lident (drop_ws r) = lident r.
Proof. intros r. unfold lident. rewrite drop_ws_idem. reflexivity. Qed.
Lemma larg_dw : forall f r, larg f (drop_ws r) = larg f r.
Proof. intros [| f] r; [reflexivity |]. cbn [larg]. rewrite lident_dw. reflexivity. Qed.
Lemma dw_blanks : forall w r, blanks w -> drop_ws (w ++ r) = drop_ws r.
Proof. intros w r H. apply drop_ws_app. apply ws_blanks. exact H. Qed.
Lemma dw_nb : forall c r, is_ws c = false -> drop_ws (c :: r) = c :: r.
Proof. intros c r H. cbn [drop_ws]. rewrite H. reflexivity. Qed.
Lemma lchar_hit : forall a w r, blanks w -> is_ws a = false -> lchar (ch a) (w ++ a :: r) = (true, r).
Proof.
  intros a w r HW HA. unfold lchar, lpeek. destruct (w ++ a :: r) as [| x q] eqn:E; [destruct w; discriminate |]. rewrite <- E.
  rewrite dw_blanks by exact HW. rewrite dw_nb by exact HA. cbn [hd]. change (ch a a) with (a =? a). rewrite N.eqb_refl. reflexivity.
Qed.
Lemma lchar_miss : forall a r, a <> 0 -> hd 0 (drop_ws r) <> a -> lchar (ch a) r = (false, drop_ws r).
Proof.
  intros a r A H. rewrite <- lchar_dw by exact A. unfold lchar, lpeek. assert (D := drop_ws_idem r).
  destruct (drop_ws r) as [| x q]; [reflexivity |]. rewrite D. cbn [hd] in *. change (ch a x) with (x =? a).
  destruct (N.eqb_spec x a); [congruence | reflexivity].
Qed.
Lemma span_all : forall p a b, Forall (fun c => p c = true) a -> (forall c q, b = c :: q -> p c = false) -> span p (a ++ b) = (a, b).
Proof.
  induction a as [| c a IH]; intros b HA HB; cbn [app].
  - destruct b as [| c q]; [reflexivity |]. cbn [span]. rewrite (HB c q eq_refl). reflexivity.
  - inversion HA; subst. cbn [span]. rewrite H1. rewrite IH by assumption. reflexivity.
Qed.
Lemma lident_hit : forall n rest, identifier n -> (forall c q, rest = c :: q -> id_char c = false) -> lident (n ++ rest) = (n, rest).
Proof.
  intros n rest (c & r & -> & L & F) HR. unfold lident. cbn [app].
  rewrite dw_nb. 2: { destruct (is_ws c) eqn:E; [| reflexivity]. apply is_ws_blank in E. unfold blank in E. cbn [In] in E. unfold letter in L. lia. }
  apply id_start_letter in L. rewrite L. rewrite span_all; [reflexivity | | exact HR].
  eapply Forall_impl; [| exact F]. intros x. apply id_char_ok.
Qed.

(** *** What may follow *)
Definition stop (e : bool) (rest : list N) : Prop :=
  if e then exists c q, rest = c :: q /\ is_num c = false /\ is_ws c = false
  else (forall c q, rest = c :: q -> id_char c = false) /\ hd 0 (drop_ws rest) <> 40.
Lemma stop_gap : forall e w c r, gap e w -> In c [58; 44; 41] -> stop e (w ++ c :: r).
Proof.
  intros e w c r [HW HE] HC. assert (WC : is_ws c = false /\ is_num c = false /\ id_char c = false /\ c <> 40).
  { cbn [In] in HC. destruct HC as [<- | [<- | [<- | []]]]; repeat split; discriminate. }
  destruct WC as (W1 & W2 & W3 & W4). destruct e; cbn [stop].
  - rewrite (HE eq_refl). exists c, r. auto.
  - split.
    + intros x q E. destruct w as [| y w]; cbn [app] in E; injection E as -> _; [exact W3 |].
      assert (B : blank x) by now inversion HW. unfold blank in B. cbn [In] in B. destruct B as [<- | [<- | [<- | [<- | []]]]]; reflexivity.
    + rewrite dw_blanks by exact HW. rewrite dw_nb by exact W1. cbn [hd]. exact W4.
Qed.

Definition yields {A} (m : lres A) (a : A) (rest : list N) : Prop :=
  match m with LFuel => True | LErr => False | LOk x r => x = a /\ drop_ws r = drop_ws rest end.
Definition P_single (s : list N) (v : value) (e : bool) : Prop :=
  forall w rest fuel, blanks w -> stop e rest -> yields (lsingle fuel [] (w ++ s ++ rest)) v rest.
Definition P_args (s : list N) (l : list arg) : Prop :=
  forall rest fuel, yields (largs fuel true (s ++ rest)) l rest.
Definition P_more (s : list N) (l : list arg) : Prop :=
  forall w rest fuel, blanks w -> yields (largs fuel false (w ++ s ++ rest)) l rest.
Definition P_arg (s : list N) (a : arg) (e : bool) : Prop :=
  forall rest fuel, stop e rest -> hd 0 (drop_ws rest) <> 58 -> hd 0 (drop_ws rest) <> 61 -> yields (larg fuel (s ++ rest)) a rest.
Definition P_chain (s : list N) (v : value) (e : bool) : Prop :=
  (forall w rest fuel, blanks w -> stop e rest ->
     lvalue fuel [] (w ++ s ++ rest) = LFuel \/ exists f, lvalue fuel [] (w ++ s ++ rest) = lchain f v rest) /\
  (forall rest, stop e rest -> hd 0 (drop_ws rest) <> 61 -> forall nm r, lident (s ++ rest) = (nm, r) -> nm <> [] -> hd 0 (drop_ws r) <> 61).

Lemma peek_no : forall acc c q, is_ws c = false -> fst (lpeek acc (c :: q)) = acc c.
Proof. intros acc c q H. cbn [lpeek fst]. rewrite dw_nb by exact H. reflexivity. Qed.
Lemma lsingle_named : forall f w n rest, blanks w -> identifier n -> (forall c q, rest = c :: q -> id_char c = false) ->
  lsingle (S f) [] (w ++ n ++ rest) = lnamed f n rest.
Proof.
  intros f w n rest HW HN HR. cbn [lsingle]. rewrite dw_blanks by exact HW.
  assert (HI := lident_hit n rest HN HR). destruct HN as (c & r & -> & L & F). cbn [app] in *.
  destruct (begins_char c (or_intror (or_intror (or_intror L)))) as (W & _). rewrite dw_nb by exact W.
  rewrite !peek_no by exact W. unfold letter in L.
  assert (C1 : ch 34 c = false) by (unfold ch; apply N.eqb_neq; lia).
  assert (C2 : ch 39 c = false) by (unfold ch; apply N.eqb_neq; lia).
  assert (C3 : is_num c = false).
  { destruct (is_num c) eqn:E; [| reflexivity]. apply is_num_numeric in E. unfold numeric, digit in E. lia. }
  rewrite C1, C2, C3, HI. reflexivity.
Qed.
Lemma lident_letter : forall c q, ~ letter c -> is_ws c = false -> lident (c :: q) = ([], c :: q).
Proof.
  intros c q HL HW. unfold lident. rewrite dw_nb by exact HW. destruct (id_start c) eqn:E; [| reflexivity].
  apply id_start_letter in E. contradiction.
Qed.
Lemma lident_len0 : forall c q nm r, ~ letter c -> is_ws c = false -> lident (c :: q) = (nm, r) -> nm <> [] -> False.
Proof. intros c q nm r HL HW H NE. rewrite lident_letter in H by assumption. injection H as <- _. congruence. Qed.
Lemma lstr_hit : forall d s r, ~ In d s -> lstr d (s ++ d :: r) = Some (s, r).
Proof.
  induction s as [| c s IH]; intros r H; cbn [app lstr].
  - rewrite N.eqb_refl. reflexivity.
  - cbn [In] in H. destruct (N.eqb_spec c d); [exfalso; apply H; auto |]. rewrite IH by tauto. reflexivity.
Qed.
Lemma lvalue_ident : forall f text nm r, lident text = (nm, r) -> nm <> [] -> lvalue f nm r = lvalue f [] text.
Proof.
  intros f text nm r H NE. destruct f as [| f]; [reflexivity |]. cbn [lvalue]. destruct f as [| f]; [reflexivity |].
  assert (ID := H). apply lident_some in ID; [| exact NE]. destruct ID as (w & E & HW & ID).
  assert (HR : forall c q, r = c :: q -> id_char c = false).
  { intros c q ER. unfold lident in H. destruct (drop_ws text) as [| x y]; [injection H as <- _; congruence |].
    destruct (id_start x); [| injection H as <- _; congruence]. assert (SH := span_hd id_char y). destruct (span id_char y) as [a b].
    injection H as _ <-. cbn [snd] in SH. eapply SH. exact ER. }
  rewrite E. rewrite lsingle_named by assumption.
  assert (LN : lsingle (S f) nm r = lnamed f nm (drop_ws r)).
  { cbn [lsingle]. destruct nm; [congruence | reflexivity]. }
  rewrite LN. destruct f as [| f]; [reflexivity |]. cbn [lnamed]. destruct (is_boolean nm); cbn [lbind]; [apply lchain_dw |].
  rewrite drop_ws_idem. reflexivity.
Qed.

Lemma complete_all :
  (forall s v e, single s v e -> P_single s v e) /\
  (forall s l, arguments s l -> P_args s l) /\
  (forall s l, more s l -> P_more s l) /\
  (forall s a e, argument s a e -> P_arg s a e) /\
  (forall s v e, chained s v e -> P_chain s v e).
Proof.
  apply grammar_ind.
  - (* S_double *) intros s HS w rest fuel HW _. destruct fuel as [| f]; [exact I |]. cbn [lsingle]. rewrite dw_blanks by exact HW.
    cbn [app]. rewrite dw_nb by reflexivity. rewrite peek_no by reflexivity. change (ch 34 34) with true. cbv iota. cbn [tl].
    rewrite <- app_assoc. cbn [app]. rewrite lstr_hit by exact HS. cbn. auto.
  - (* S_quoted *) intros s HS w rest fuel HW _. destruct fuel as [| f]; [exact I |]. cbn [lsingle]. rewrite dw_blanks by exact HW.
    cbn [app]. rewrite dw_nb by reflexivity. rewrite !peek_no by reflexivity. change (ch 34 39) with false. change (ch 39 39) with true. cbv iota. cbn [tl].
    rewrite <- app_assoc. cbn [app]. rewrite lstr_hit by exact HS. cbn. auto.
  - (* S_number *) intros c s HC HS w rest fuel HW (x & q & -> & N1 & W1). destruct fuel as [| f]; [exact I |]. cbn [lsingle].
    rewrite dw_blanks by exact HW. destruct (begins_char c (or_intror (or_intror (or_introl HC)))) as (W & _).
    cbn [app]. rewrite dw_nb by exact W. rewrite !peek_no by exact W. assert (HN := HC). apply is_num_numeric in HN. unfold numeric, digit in HC.
    assert (C1 : ch 34 c = false) by (unfold ch; apply N.eqb_neq; lia).
    assert (C2 : ch 39 c = false) by (unfold ch; apply N.eqb_neq; lia). rewrite C1, C2, HN.
    unfold lnum. fold nw. change (c :: s ++ x :: q) with ((c :: s) ++ x :: q). rewrite span_all.
    + cbn. auto.
    + constructor; [unfold nw; rewrite HN; reflexivity |]. eapply Forall_impl; [| exact HS]. intros y [Y | Y]; unfold nw.
      * apply is_num_numeric in Y. rewrite Y. reflexivity.
      * apply is_ws_blank in Y. rewrite Y. apply orb_true_r.
    + intros c0 q0 E. injection E as <- _. unfold nw. rewrite N1, W1. reflexivity.
  - (* S_bool *) intros s HB w rest fuel HW [ST1 ST2]. destruct fuel as [| f]; [exact I |].
    rewrite lsingle_named; [| exact HW | apply boolean_identifier; exact HB | exact ST1]. destruct f as [| f]; [exact I |]. cbn [lnamed].
    apply is_boolean_ok in HB. rewrite HB. cbn. auto.
  - (* S_name *) intros n HN NB w rest fuel HW [ST1 ST2]. destruct fuel as [| f]; [exact I |].
    rewrite lsingle_named; [| exact HW | exact HN | exact ST1]. destruct f as [| f]; [exact I |]. cbn [lnamed].
    apply is_boolean_no in NB. rewrite NB. rewrite lchar_miss; [| discriminate | rewrite drop_ws_idem; exact ST2].
    cbn. rewrite !drop_ws_idem. auto.
  - (* S_call *) intros n w0 s args HN NB HW0 _ IH w rest fuel HW _. destruct fuel as [| f]; [exact I |].
    replace ((n ++ w0 ++ 40 :: s) ++ rest) with (n ++ (w0 ++ 40 :: s ++ rest)) by na.
    rewrite lsingle_named; [| exact HW | exact HN |].
    2: { intros c q E. destruct w0 as [| y w0]; cbn [app] in E; injection E as <- _; [reflexivity |].
         assert (B : blank y) by now inversion HW0. unfold blank in B. cbn [In] in B. destruct B as [<- | [<- | [<- | [<- | []]]]]; reflexivity. }
    destruct f as [| f]; [exact I |]. cbn [lnamed]. apply is_boolean_no in NB. rewrite NB.
    rewrite lchar_dw by discriminate. rewrite lchar_hit by (exact HW0 || reflexivity).
    specialize (IH rest f). destruct (largs f true (s ++ rest)) as [a r | |]; cbn in IH |- *; try contradiction; [| exact I].
    destruct IH as [-> IH]. auto.
  - (* A_none *) intros w HW rest fuel. destruct fuel as [| f]; [exact I |]. cbn [largs]. rewrite lchar_dw by discriminate.
    rewrite <- app_assoc. cbn [app]. rewrite lchar_hit by (exact HW || reflexivity). cbn. auto.
  - (* A_first *) intros s a e w r args HA IHa HG HM IHm rest fuel. destruct fuel as [| f]; [exact I |]. cbn [largs].
    replace ((s ++ w ++ r) ++ rest) with (s ++ (w ++ r ++ rest)) by na.
    destruct (argument_nonblank _ _ _ HA) as (w1 & s1 & -> & HW1 & B). assert (B2 := B). apply begins_hd in B2. destruct B2 as (c & q & EQ & D & X1 & X2 & X3).
    assert (DD : forall z, drop_ws ((w1 ++ s1) ++ z) = s1 ++ z).
    { intros z. rewrite <- app_assoc. rewrite dw_blanks by exact HW1. subst s1. destruct B as (c' & q' & E' & BB). injection E' as <- <-.
      cbn [app]. apply dw_nb. apply (begins_char c BB). }
    rewrite DD. assert (DS : forall z, drop_ws (s1 ++ z) = s1 ++ z).
    { intros z. rewrite <- (DD z). apply drop_ws_idem. }
    assert (MISS : forall z, lchar (ch 41) (s1 ++ z) = (false, s1 ++ z)).
    { intros z. rewrite lchar_miss; [rewrite DS; reflexivity | discriminate |]. rewrite DS. subst s1. cbn [app hd]. exact X1. }
    rewrite MISS. rewrite MISS. rewrite <- (DD (w ++ r ++ rest)). rewrite larg_dw.
    assert (RH : exists c0 r0, r ++ rest = c0 :: r0 /\ In c0 [58; 44; 41] /\ c0 <> 58).
    { destruct HM; cbn [app]; do 2 eexists; (split; [reflexivity |]); cbn [In]; split; auto; discriminate. }
    destruct RH as (c0 & r0 & ER & IC & N58).
    assert (HD : hd 0 (drop_ws (w ++ r ++ rest)) = c0).
    { destruct HG as [HG _]. rewrite dw_blanks by exact HG. rewrite ER. rewrite dw_nb; [reflexivity |]. cbn [In] in IC. destruct IC as [<- | [<- | [<- | []]]]; reflexivity. }
    specialize (IHa (w ++ r ++ rest) f). rewrite HD in IHa. rewrite ER in IHa at 1.
    specialize (IHa (stop_gap _ _ _ _ HG IC) N58 ltac:(cbn [In] in IC; lia)).
    destruct (larg f ((w1 ++ s1) ++ w ++ r ++ rest)) as [a1 r1 | |]; cbn [yields lbind] in IHa |- *; try contradiction; [| exact I].
    destruct IHa as [-> IHa]. destruct HG as [HG _]. specialize (IHm w rest f HG). rewrite <- largs_dw, IHa, largs_dw.
    destruct (largs f false (w ++ r ++ rest)) as [l2 r2 | |]; cbn [yields lbind] in IHm |- *; try contradiction; [| exact I].
    destruct IHm as [-> IHm]. auto.
  - (* M_end *) intros w rest fuel HW. destruct fuel as [| f]; [exact I |]. cbn [largs]. rewrite lchar_dw by discriminate.
    cbn [app]. rewrite lchar_hit by (exact HW || reflexivity). cbn. auto.
  - (* M_comma *) intros w0 HW0 w rest fuel HW. destruct fuel as [| f]; [exact I |]. cbn [largs]. rewrite lchar_dw by discriminate.
    cbn [app]. rewrite lchar_miss; [| discriminate |].
    2: { rewrite dw_blanks by exact HW. rewrite dw_nb by reflexivity. discriminate. }
    rewrite lchar_dw by discriminate. rewrite lchar_hit by (exact HW || reflexivity).
    rewrite <- app_assoc. cbn [app]. rewrite lchar_hit by (exact HW0 || reflexivity). cbn. auto.
  - (* M_next *) intros s a e w r args HA IHa HG HM IHm w0 rest fuel HW0. destruct fuel as [| f]; [exact I |]. cbn [largs].
    replace (w0 ++ (44 :: s ++ w ++ r) ++ rest) with (w0 ++ 44 :: (s ++ (w ++ r ++ rest))) by na.
    rewrite lchar_dw by discriminate. rewrite lchar_miss; [| discriminate |].
    2: { rewrite dw_blanks by exact HW0. rewrite dw_nb by reflexivity. discriminate. }
    rewrite lchar_dw by discriminate. rewrite lchar_hit by (exact HW0 || reflexivity).
    destruct (argument_nonblank _ _ _ HA) as (w1 & s1 & -> & HW1 & B). assert (B2 := B). apply begins_hd in B2. destruct B2 as (c & q & EQ & D & X1 & X2 & X3).
    assert (DD : forall z, drop_ws ((w1 ++ s1) ++ z) = s1 ++ z).
    { intros z. rewrite <- app_assoc. rewrite dw_blanks by exact HW1. subst s1. destruct B as (c' & q' & E' & BB). injection E' as <- <-.
      cbn [app]. apply dw_nb. apply (begins_char c BB). }
    rewrite lchar_miss; [| discriminate |]. 2: { rewrite DD. subst s1. cbn [app hd]. exact X1. }
    rewrite larg_dw.
    assert (RH : exists c0 r0, r ++ rest = c0 :: r0 /\ In c0 [58; 44; 41] /\ c0 <> 58).
    { destruct HM; cbn [app]; do 2 eexists; (split; [reflexivity |]); cbn [In]; split; auto; discriminate. }
    destruct RH as (c0 & r0 & ER & IC & N58).
    assert (HD : hd 0 (drop_ws (w ++ r ++ rest)) = c0).
    { destruct HG as [HG _]. rewrite dw_blanks by exact HG. rewrite ER. rewrite dw_nb; [reflexivity |]. cbn [In] in IC. destruct IC as [<- | [<- | [<- | []]]]; reflexivity. }
    specialize (IHa (w ++ r ++ rest) f). rewrite HD in IHa. rewrite ER in IHa at 1.
    specialize (IHa (stop_gap _ _ _ _ HG IC) N58 ltac:(cbn [In] in IC; lia)).
    destruct (larg f ((w1 ++ s1) ++ w ++ r ++ rest)) as [a1 r1 | |]; cbn [yields lbind] in IHa |- *; try contradiction; [| exact I].
    destruct IHa as [-> IHa]. destruct HG as [HG _]. specialize (IHm w rest f HG). rewrite <- largs_dw, IHa, largs_dw.
    destruct (largs f false (w ++ r ++ rest)) as [l2 r2 | |]; cbn [yields lbind] in IHm |- *; try contradiction; [| exact I].
    destruct IHm as [-> IHm]. auto.
  - (* G_positional *) intros w s v e HW HC [IH1 IH2] rest fuel ST N58 N61. destruct fuel as [| f]; [exact I |]. cbn [larg].
    rewrite <- lident_dw. rewrite <- app_assoc. rewrite dw_blanks by exact HW. rewrite lident_dw.
    assert (FIN : yields (lvalue f [] (s ++ rest)) v rest).
    { destruct (IH1 [] rest f (Forall_nil _) ST) as [E | [f' E]]; cbn [app] in E; rewrite E; [exact I |].
      destruct f' as [| f']; [exact I |]. cbn [lchain]. rewrite lchar_miss by (discriminate || exact N58). cbn. rewrite drop_ws_idem. auto. }
    destruct (lident (s ++ rest)) as [nm r] eqn:EI. destruct nm as [| c nm].
    + apply lident_none in EI. subst r. rewrite lvalue_dw. destruct (lvalue f [] (s ++ rest)) as [x y | |]; cbn in FIN |- *; try contradiction; [| exact I].
      destruct FIN as [-> FIN]. auto.
    + rewrite lchar_miss; [| discriminate | eapply IH2; eauto; discriminate]. rewrite lvalue_dw.
      rewrite (lvalue_ident f (s ++ rest) (c :: nm) r EI ltac:(discriminate)).
      destruct (lvalue f [] (s ++ rest)) as [x y | |]; cbn in FIN |- *; try contradiction; [| exact I].
      destruct FIN as [-> FIN]. auto.
  - (* G_keyword *) intros w k w1 w2 s v e HW HK HW1 HW2 HC [IH1 IH2] rest fuel ST N58 N61. destruct fuel as [| f]; [exact I |]. cbn [larg].
    replace ((w ++ k ++ w1 ++ 61 :: w2 ++ s) ++ rest) with (w ++ (k ++ (w1 ++ 61 :: (w2 ++ s ++ rest)))) by na.
    rewrite <- lident_dw. rewrite dw_blanks by exact HW. rewrite lident_dw. rewrite lident_hit; [| exact HK |].
    2: { intros c q E. destruct w1 as [| y w1]; cbn [app] in E; injection E as <- _; [reflexivity |].
         assert (B : blank y) by now inversion HW1. unfold blank in B. cbn [In] in B. destruct B as [<- | [<- | [<- | [<- | []]]]]; reflexivity. }
    destruct k as [| c k]; [destruct HK as (? & ? & HK & _); discriminate |].
    rewrite lchar_hit by (exact HW1 || reflexivity).
    destruct (IH1 w2 rest f HW2 ST) as [E | [f' E]]; rewrite E; [exact I |].
    destruct f' as [| f']; [exact I |]. cbn [lchain]. rewrite lchar_miss by (discriminate || exact N58). cbn. rewrite drop_ws_idem. auto.
  - (* C_one *) intros s v e HS IH. split.
    + intros w rest fuel HW ST. destruct fuel as [| f]; [left; reflexivity |]. cbn [lvalue]. specialize (IH w rest f HW ST).
      destruct (lsingle f [] (w ++ s ++ rest)) as [x y | |]; cbn in IH |- *; try contradiction; [| left; reflexivity].
      destruct IH as [-> IH]. right. exists f. rewrite <- (lchain_dw f v y), IH, lchain_dw. reflexivity.
    + intros rest ST N61 nm r HI NE. destruct HS as [s HS | s HS | c s HC HS | s HB | n HN NB | n w s args HN NB HW HA].
      * exfalso. cbn [app] in HI. revert HI NE. apply lident_len0; [unfold letter; lia | reflexivity].
      * exfalso. cbn [app] in HI. revert HI NE. apply lident_len0; [unfold letter; lia | reflexivity].
      * exfalso. cbn [app] in HI. revert HI NE. apply lident_len0.
        -- unfold letter, numeric, digit in *. lia.
        -- apply (begins_char c). auto.
      * destruct ST as [ST1 ST2]. rewrite lident_hit in HI; [| apply boolean_identifier; exact HB | exact ST1]. injection HI as _ <-. exact N61.
      * destruct ST as [ST1 ST2]. rewrite lident_hit in HI; [| exact HN | exact ST1]. injection HI as _ <-. exact N61.
      * replace ((n ++ w ++ 40 :: s) ++ rest) with (n ++ (w ++ 40 :: s ++ rest)) in HI by na. rewrite lident_hit in HI; [| exact HN |].
        2: { intros c q E. destruct w as [| y w]; cbn [app] in E; injection E as <- _; [reflexivity |].
         assert (B : blank y) by now inversion HW. unfold blank in B. cbn [In] in B. destruct B as [<- | [<- | [<- | [<- | []]]]]; reflexivity. }
        injection HI as _ <-. rewrite dw_blanks by exact HW. rewrite dw_nb by reflexivity. discriminate.
  - (* C_more *) intros s v e w1 w2 s2 v2 e2 HC [IH1 IH2] HG HW2 HS2 IHs. split.
    + intros w rest fuel HW ST.
      replace (w ++ (s ++ w1 ++ 58 :: w2 ++ s2) ++ rest) with (w ++ s ++ (w1 ++ 58 :: (w2 ++ s2 ++ rest))) by na.
      assert (ST1 : stop e (w1 ++ 58 :: w2 ++ s2 ++ rest)) by (apply stop_gap; [exact HG | cbn; auto]).
      destruct (IH1 w _ fuel HW ST1) as [E | [f E]]; rewrite E; [left; reflexivity |].
      destruct f as [| f]; [left; reflexivity |]. cbn [lchain]. destruct HG as [HG _]. rewrite lchar_hit by (exact HG || reflexivity).
      specialize (IHs w2 rest f HW2 ST).
      destruct (lsingle f [] (w2 ++ s2 ++ rest)) as [x y | |]; cbn in IHs |- *; try contradiction; [| left; reflexivity].
      destruct IHs as [-> IHs]. right. exists f. rewrite <- lchain_dw, IHs, lchain_dw. reflexivity.
    + intros rest ST N61. replace ((s ++ w1 ++ 58 :: w2 ++ s2) ++ rest) with (s ++ (w1 ++ 58 :: (w2 ++ s2 ++ rest))) by na.
      apply IH2.
      * apply stop_gap; [exact HG | cbn; auto].
      * destruct HG as [HG _]. rewrite dw_blanks by exact HG. rewrite dw_nb by reflexivity. discriminate.
Qed.
