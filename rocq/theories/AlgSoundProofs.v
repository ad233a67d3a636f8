From Verif Require Import Base AlgParser AlgSyntax AlgListProofs.
Local Open Scope N_scope.

(** *** Character classes *)
Lemma is_ws_blank : forall c, is_ws c = true <-> blank c.
Proof.
  intros c. unfold is_ws, blank. cbn [In]. rewrite !orb_true_iff, !N.eqb_eq. intuition congruence.
Qed.
Lemma ws_blanks : forall w, forallb is_ws w = true <-> blanks w.
Proof.
  intros w. rewrite forallb_forall. unfold blanks. rewrite Forall_forall. split; intros H x Hx; apply is_ws_blank; auto.
Qed.
Lemma is_num_numeric : forall c, is_num c = true <-> numeric c.
Proof.
  intros c. unfold is_num, numeric, digit. rewrite !orb_true_iff, !andb_true_iff, !N.eqb_eq, !N.leb_le. tauto.
Qed.
Lemma id_start_letter : forall c, id_start c = true <-> letter c.
Proof.
  intros c. unfold id_start, letter. rewrite !orb_true_iff, !andb_true_iff, !N.eqb_eq, !N.leb_le. tauto.
Qed.
Lemma id_char_ok : forall c, id_char c = true <-> letter c \/ digit c.
Proof.
  intros c. unfold id_char, digit. rewrite orb_true_iff, id_start_letter, !andb_true_iff, !N.leb_le. tauto.
Qed.
Lemma is_boolean_ok : forall s, is_boolean s = true <-> boolean s.
Proof.
  intros s. unfold is_boolean, list_eqb, boolean. destruct (list_eq_dec N.eq_dec s str_true), (list_eq_dec N.eq_dec s str_false); cbn; intuition congruence.
Qed.
Lemma is_boolean_no : forall s, is_boolean s = false <-> ~ boolean s.
Proof. intros s. rewrite <- is_boolean_ok. destruct (is_boolean s); intuition congruence. Qed.

Lemma drop_ws_blanks : forall r, exists w, r = w ++ drop_ws r /\ blanks w.
Proof. intros r. destruct (drop_ws_split r) as (w & E & F). exists w. rewrite <- ws_blanks. auto. Qed.
Lemma blanks_app : forall a b, blanks a -> blanks b -> blanks (a ++ b).
Proof. intros. unfold blanks. apply Forall_app. auto. Qed.
Lemma blanks_nil : blanks [].
Proof. constructor. Qed.
Lemma gap_false : forall w, blanks w -> gap false w.
Proof. intros w H. split; [exact H | discriminate]. Qed.
Lemma gap_nil : forall e, gap e [].
Proof. intros e. split; [constructor | auto]. Qed.
#[local] Hint Resolve blanks_nil blanks_app gap_false gap_nil : core.

(** *** The pieces *)
Lemma lchar_true : forall a r r', a <> 0 -> lchar (ch a) r = (true, r') -> exists w, r = w ++ a :: r' /\ blanks w.
Proof.
  intros a r r' A0 H. unfold lchar, lpeek in H. destruct r as [| c r]; [discriminate |].
  destruct (drop_ws_blanks (c :: r)) as (w & E & F). exists w. split; [| exact F]. rewrite E at 1. f_equal.
  destruct (drop_ws (c :: r)) as [| x q]; cbn [hd] in H.
  - change (ch a 0) with (0 =? a) in H. destruct (N.eqb_spec 0 a); [congruence | discriminate].
  - change (ch a x) with (x =? a) in H. destruct (N.eqb_spec x a); [| discriminate]. injection H as <-. cbn. congruence.
Qed.
Lemma lchar_false : forall a r r', lchar (ch a) r = (false, r') -> r' = drop_ws r.
Proof.
  intros a r r' H. unfold lchar, lpeek in H. destruct r as [| c r]; [injection H as <-; reflexivity |].
  destruct (ch a (hd 0 (drop_ws (c :: r)))); [discriminate |]. injection H as <-. reflexivity.
Qed.
Lemma span_forall : forall p r, Forall (fun c => p c = true) (fst (span p r)).
Proof.
  induction r as [| c r IH]; cbn [span]; [constructor |]. destruct (p c) eqn:E; [| constructor].
  destruct (span p r). cbn [fst] in *. constructor; assumption.
Qed.
Lemma span_hd : forall p r c q, snd (span p r) = c :: q -> p c = false.
Proof.
  induction r as [| x r IH]; intros c q H; cbn [span] in H; [discriminate |]. destruct (p x) eqn:E.
  - destruct (span p r). cbn [snd] in *. eauto.
  - injection H as -> _. exact E.
Qed.
Lemma lident_some : forall r n r', lident r = (n, r') -> n <> [] -> exists w, r = w ++ n ++ r' /\ blanks w /\ identifier n.
Proof.
  intros r n r' H NE. unfold lident in H. destruct (drop_ws_blanks r) as (w & E & F). exists w. rewrite E at 1.
  destruct (drop_ws r) as [| c q]; [injection H as <- <-; congruence |]. destruct (id_start c) eqn:IS; [| injection H as <- <-; congruence].
  assert (SP := span_app id_char q). assert (SF := span_forall id_char q). destruct (span id_char q) as [a b]. cbn [fst snd] in *.
  injection H as <- <-. split; [cbn [app]; congruence |]. split; [exact F |]. exists c, a. split; [reflexivity |].
  split; [apply id_start_letter; exact IS |]. eapply Forall_impl; [| exact SF]. intros x. apply id_char_ok.
Qed.
Lemma lident_none : forall r r', lident r = ([], r') -> r' = drop_ws r.
Proof.
  intros r r' H. unfold lident in H. destruct (drop_ws r) as [| c q]; [congruence |]. destruct (id_start c); [| congruence].
  destruct (span id_char q). discriminate.
Qed.
Lemma lstr_some : forall d r s r', lstr d r = Some (s, r') -> r = s ++ d :: r' /\ ~ In d s.
Proof.
  induction r as [| c r IH]; intros s r' H; cbn [lstr] in H; [discriminate |]. destruct (N.eqb_spec c d).
  - injection H as <- <-. subst. auto.
  - destruct (lstr d r) as [[s1 r1] |]; [| discriminate]. injection H as <- <-. destruct (IH s1 r1 eq_refl) as [-> HI].
    split; [reflexivity |]. cbn. tauto.
Qed.
Lemma lnum_some : forall r s r', lnum r = Some (s, r') -> r = s ++ r' /\ Forall (fun c => numeric c \/ blank c) s /\
  (forall c q, r' = c :: q -> ~ numeric c /\ ~ blank c).
Proof.
  intros r s r' H. unfold lnum in H. fold nw in H. assert (SP := span_app nw r). assert (SF := span_forall nw r). assert (SH := span_hd nw r).
  destruct (span nw r) as [p q]. cbn [fst snd] in *.
  assert (H1 : s = p /\ r' = q).
  { destruct q; [destruct (is_ws (last p 0)) |]; congruence || (injection H as <- <-; auto). }
  destruct H1 as [-> ->]. split; [exact SP |]. split.
  - eapply Forall_impl; [| exact SF]. intros x. unfold nw. rewrite orb_true_iff, is_num_numeric, is_ws_blank. auto.
  - intros c q' E. specialize (SH c q' E). unfold nw in SH. apply orb_false_iff in SH as [S1 S2].
    rewrite <- is_num_numeric, <- is_ws_blank. split; congruence.
Qed.

(** *** Soundness: what the parser accepts is a piece of the grammar *)
Definition dropped (e : bool) (r : list N) : Prop := e = true -> drop_ws r = r.
Definition is_single (text : list N) (v : value) (r' : list N) : Prop :=
  exists w s e u, text = w ++ s ++ u ++ r' /\ blanks w /\ single s v e /\ gap e u /\ dropped e r'.
Definition is_chained (text : list N) (v : value) (r' : list N) : Prop :=
  exists w s e u, text = w ++ s ++ u ++ r' /\ blanks w /\ chained s v e /\ gap e u /\ dropped e r'.
Definition ident_or_nil (n : list N) : Prop := n = [] \/ identifier n.

Lemma dropped_false : forall r, dropped false r.
Proof. intros r H. discriminate. Qed.
#[local] Hint Resolve dropped_false : core.

Ltac na := repeat progress (cbn [app]; rewrite <- ?app_assoc); reflexivity.
Ltac lb H := match type of H with lbind ?m _ = LOk _ _ => let E := fresh "E" in let a := fresh "a" in let r := fresh "r" in
  destruct m as [a r | |] eqn:E; cbn [lbind] in H; try discriminate end.

Lemma sound_all : forall fuel,
  (forall already r v r', ident_or_nil already -> lsingle fuel already r = LOk v r' -> is_single (already ++ r) v r') /\
  (forall name r v r', identifier name -> lnamed fuel name r = LOk v r' ->
     exists s u, r = s ++ u ++ r' /\ blanks u /\
       ((s = [] /\ single name v false) \/
        (exists w s' args, s = w ++ 40 :: s' /\ blanks w /\ ~ boolean name /\ arguments s' args /\ v = VInv name args))) /\
  (forall first r l r', largs fuel first r = LOk l r' ->
     if first then exists s, r = s ++ r' /\ arguments s l
     else exists w s, r = w ++ s ++ r' /\ blanks w /\ more s l) /\
  (forall r a r', larg fuel r = LOk a r' ->
     exists s e u, r = s ++ u ++ r' /\ argument s a e /\ gap e u /\ dropped e r') /\
  (forall already r v r', ident_or_nil already -> lvalue fuel already r = LOk v r' -> is_chained (already ++ r) v r') /\
  (forall v r v' r' text, is_chained text v r -> lchain fuel v r = LOk v' r' -> is_chained text v' r').
Proof.
  induction fuel as [| fuel (I1 & I2 & I3 & I4 & I5 & I6)]; [repeat split; intros; discriminate |].
  split; [| split; [| split; [| split; [| split]]]].
  - intros already r v r' HA H. cbn [lsingle] in H. destruct (drop_ws_blanks r) as (w & EW & FW). set (q := drop_ws r) in *.
    assert (DD : drop_ws q = q) by apply drop_ws_idem. clearbody q. subst r.
    destruct already as [| a al].
    + cbn [app]. destruct (fst (lpeek (ch 34) q)) eqn:P1.
      { destruct (lpeek_true (ch 34) q eq_refl DD P1) as (x & q' & -> & X). apply N.eqb_eq in X. subst x. cbn [tl] in H.
        destruct (lstr 34 q') as [[s q1] |] eqn:E; [| discriminate]. cbn [lopt lbind] in H. injection H as <- <-.
        destruct (lstr_some _ _ _ _ E) as [-> HI]. exists w, (34 :: s ++ [34]), false, [].
        split; [na |]. split; [exact FW |]. split; [constructor; exact HI | auto]. }
      destruct (fst (lpeek (ch 39) q)) eqn:P2.
      { destruct (lpeek_true (ch 39) q eq_refl DD P2) as (x & q' & -> & X). apply N.eqb_eq in X. subst x. cbn [tl] in H.
        destruct (lstr 39 q') as [[s q1] |] eqn:E; [| discriminate]. cbn [lopt lbind] in H. injection H as <- <-.
        destruct (lstr_some _ _ _ _ E) as [-> HI]. exists w, (39 :: s ++ [39]), false, [].
        split; [na |]. split; [exact FW |]. split; [constructor; exact HI | auto]. }
      destruct (fst (lpeek is_num q)) eqn:P3.
      { destruct (lpeek_true is_num q eq_refl DD P3) as (x & q' & -> & X).
        destruct (lnum (x :: q')) as [[s q1] |] eqn:E; [| discriminate]. cbn [lopt lbind] in H. injection H as <- <-.
        destruct (lnum_some _ _ _ E) as (E1 & F1 & F2). destruct s as [| y s].
        { exfalso. cbn [app] in E1. destruct (F2 x q' (eq_sym E1)) as [C _]. apply C. apply is_num_numeric. exact X. }
        cbn [app] in E1. injection E1 as -> ->. exists w, (y :: s), true, [].
        split; [reflexivity |]. split; [exact FW |]. split; [| split; [auto |]].
        - constructor; [apply is_num_numeric; exact X | now inversion F1].
        - intros _. destruct q1 as [| z q1]; [reflexivity |]. cbn [drop_ws]. destruct (is_ws z) eqn:Z; [| reflexivity].
          exfalso. destruct (F2 z q1 eq_refl) as [_ C]. apply C. apply is_ws_blank. exact Z. }
      destruct (lident q) as [nm q1] eqn:EI. destruct nm as [| b nm]; [discriminate |].
      destruct (lident_some _ _ _ EI ltac:(discriminate)) as (w1 & -> & FW1 & ID).
      destruct (I2 _ _ _ _ ID H) as (s & u & -> & HU & [[-> HS] | (w2 & s' & args & -> & HW2 & NB & AR & ->)]).
      * exists (w ++ w1), (b :: nm), false, u. split; [na |]. auto.
      * exists (w ++ w1), ((b :: nm) ++ w2 ++ 40 :: s'), false, u.
        split; [na |].
        split; [auto |]. split; [constructor; assumption | auto].
    + destruct HA as [HA | ID]; [discriminate |].
      destruct (I2 _ _ _ _ ID H) as (s & u & -> & HU & [[-> HS] | (w2 & s' & args & -> & HW2 & NB & AR & ->)]).
      * exists [], (a :: al), false, (w ++ u). split; [na |]. auto 6.
      * exists [], ((a :: al) ++ (w ++ w2) ++ 40 :: s'), false, u.
        split; [na |].
        split; [auto |]. split; [constructor; auto | auto].
  - intros name r v r' ID H. cbn [lnamed] in H. destruct (is_boolean name) eqn:B.
    { injection H as <- <-. exists [], []. split; [reflexivity |]. split; [auto |]. left. split; [reflexivity |].
      constructor. apply is_boolean_ok. exact B. }
    apply is_boolean_no in B. destruct (drop_ws_blanks r) as (w & EW & FW). set (q := drop_ws r) in *. clearbody q. subst r.
    destruct (lchar (ch 40) q) as [b q1] eqn:EC. destruct b.
    + lb H. injection H as <- <-. destruct (lchar_true 40 _ _ ltac:(discriminate) EC) as (w1 & -> & FW1).
      destruct (I3 _ _ _ _ E) as (s & -> & AR).
      exists ((w ++ w1) ++ 40 :: s), []. split; [na |]. split; [auto |]. right.
      exists (w ++ w1), s, a. auto 6.
    + injection H as <- <-. apply lchar_false in EC. destruct (drop_ws_blanks q) as (w1 & E1 & F1). rewrite <- EC in E1. subst q.
      exists [], (w ++ w1). split; [na |]. split; [auto |]. left.
      split; [reflexivity |]. constructor; assumption.
  - intros first r l r' H. cbn [largs] in H. destruct (drop_ws_blanks r) as (w & EW & FW). set (q := drop_ws r) in *. clearbody q. subst r.
    destruct (lchar (ch 41) q) as [b q1] eqn:EC. destruct b.
    { injection H as <- <-. destruct (lchar_true 41 _ _ ltac:(discriminate) EC) as (w1 & -> & FW1). destruct first.
      - exists ((w ++ w1) ++ [41]). split; [na |]. constructor. auto.
      - exists (w ++ w1), [41]. split; [na |]. split; [auto | constructor]. }
    apply lchar_false in EC. destruct (drop_ws_blanks q) as (w1 & E1 & F1). rewrite <- EC in E1. clear EC. subst q. destruct first.
    + destruct (lchar (ch 41) q1) as [b q2] eqn:EC2. destruct b.
      { injection H as <- <-. destruct (lchar_true 41 _ _ ltac:(discriminate) EC2) as (w2 & -> & FW2).
        exists ((w ++ w1 ++ w2) ++ [41]). split; [na |]. constructor. auto. }
      apply lchar_false in EC2. destruct (drop_ws_blanks q1) as (w2 & E2 & F2). rewrite <- EC2 in E2. clear EC2. subst q1.
      lb H. lb H. injection H as <- <-. destruct (I4 _ _ _ E) as (s & e & u & -> & AR & G & D).
      destruct (I3 _ _ _ _ E0) as (w3 & s3 & -> & F3 & M).
      assert (G' : gap e (u ++ w3)).
      { destruct G as [G1 G2]. split; [auto |]. intros He. rewrite (G2 He). specialize (D He).
        rewrite drop_ws_app in D by (apply ws_blanks; exact F3). destruct w3 as [| z w3]; [reflexivity |]. exfalso.
        assert (Z : is_ws z = true) by (apply is_ws_blank; now inversion F3).
        destruct (drop_ws (s3 ++ r0)) as [| y q] eqn:DQ; [destruct s3; discriminate D |].
        cbn [app] in D. injection D as -> _. rewrite (drop_ws_hd _ _ _ DQ) in Z. discriminate. }
      assert (AW : forall w0, blanks w0 -> argument (w0 ++ s) a e).
      { intros w0 HW0. inversion AR; subst.
        - rewrite app_assoc. constructor; auto.
        - rewrite app_assoc. constructor; auto. }
      exists (((w ++ w1 ++ w2) ++ s) ++ (u ++ w3) ++ s3). split; [na |].
      eapply A_first; [apply AW; auto | exact G' | exact M].
    + destruct (lchar (ch 44) q1) as [b q2] eqn:EC2. destruct b; [| discriminate].
      destruct (lchar_true 44 _ _ ltac:(discriminate) EC2) as (w2 & -> & FW2). clear EC2.
      destruct (lchar (ch 41) q2) as [b q3] eqn:EC3. destruct b.
      { injection H as <- <-. destruct (lchar_true 41 _ _ ltac:(discriminate) EC3) as (w3 & -> & FW3).
        exists (w ++ w1 ++ w2), (44 :: w3 ++ [41]). split; [na |]. split; [auto |]. constructor. exact FW3. }
      apply lchar_false in EC3. destruct (drop_ws_blanks q2) as (w3 & E3 & F3). rewrite <- EC3 in E3. clear EC3. subst q2.
      lb H. lb H. injection H as <- <-. destruct (I4 _ _ _ E) as (s & e & u & -> & AR & G & D).
      destruct (I3 _ _ _ _ E0) as (w4 & s4 & -> & F4 & M).
      assert (G' : gap e (u ++ w4)).
      { destruct G as [G1 G2]. split; [auto |]. intros He. rewrite (G2 He). specialize (D He).
        rewrite drop_ws_app in D by (apply ws_blanks; exact F4). destruct w4 as [| z w4]; [reflexivity |]. exfalso.
        assert (Z : is_ws z = true) by (apply is_ws_blank; now inversion F4).
        destruct (drop_ws (s4 ++ r0)) as [| y q] eqn:DQ; [destruct s4; discriminate D |].
        cbn [app] in D. injection D as -> _. rewrite (drop_ws_hd _ _ _ DQ) in Z. discriminate. }
      assert (AW : forall w0, blanks w0 -> argument (w0 ++ s) a e).
      { intros w0 HW0. inversion AR; subst.
        - rewrite app_assoc. constructor; auto.
        - rewrite app_assoc. constructor; auto. }
      exists (w ++ w1 ++ w2), (44 :: (w3 ++ s) ++ (u ++ w4) ++ s4). split; [na |].
      split; [auto |]. eapply M_next; [apply AW; auto | exact G' | exact M].
  - intros r a r' H. cbn [larg] in H. destruct (lident r) as [ident r1] eqn:EI. destruct ident as [| c ident].
    + apply lident_none in EI. destruct (drop_ws_blanks r) as (w & EW & FW). rewrite <- EI in EW. subst r. lb H. injection H as <- <-.
      destruct (I5 [] _ _ _ (or_introl eq_refl) E) as (w1 & s & e & u & E1 & F1 & C & G & D). cbn [app] in E1. subst r1.
      exists ((w ++ w1) ++ s), e, u. split; [na |]. split; [constructor; auto | auto].
    + destruct (lident_some _ _ _ EI ltac:(discriminate)) as (w & -> & FW & ID).
      destruct (lchar (ch 61) r1) as [kw r2] eqn:EC. destruct kw.
      * destruct (lchar_true 61 _ _ ltac:(discriminate) EC) as (w1 & -> & FW1). lb H. injection H as <- <-.
        destruct (I5 [] _ _ _ (or_introl eq_refl) E) as (w2 & s & e & u & E1 & F1 & C & G & D). cbn [app] in E1. subst r2.
        exists (w ++ (c :: ident) ++ w1 ++ 61 :: w2 ++ s), e, u.
        split; [na |].
        split; [constructor; auto | auto].
      * apply lchar_false in EC. destruct (drop_ws_blanks r1) as (w1 & EW1 & FW1). rewrite <- EC in EW1. lb H. injection H as <- <-.
        assert (IH := I5 (c :: ident) _ _ _ (or_intror ID) E). clear EI.
        match type of E with lvalue _ _ _ = LOk ?x ?y => assert (IH2 : is_chained ((c :: ident) ++ r1) x y) end.
        { rewrite EC in E. clear - E I5 ID. apply (I5 (c :: ident)); [right; exact ID |].
          destruct fuel as [| f]; [discriminate |]. cbn [lvalue] in E |- *.
          destruct f as [| f]; [discriminate |]. cbn [lsingle] in E |- *. rewrite drop_ws_idem in E. exact E. }
        destruct IH2 as (w2 & s & e & u & E1 & F1 & C & G & D).
        exists ((w ++ w2) ++ s), e, u. split; [rewrite E1; na |]. split; [constructor; auto | auto].
  - intros already r v r' HA H. cbn [lvalue] in H. lb H.
    apply (I6 a r0 v r' (already ++ r)); [| exact H].
    destruct (I1 _ _ _ _ HA E) as (w & s & e & u & E1 & F1 & S1 & G & D). exists w, s, e, u. split; [exact E1 |].
    split; [exact F1 |]. split; [constructor; exact S1 | auto].
  - intros v r v' r' text HC H. cbn [lchain] in H. destruct (lchar (ch 58) r) as [q r1] eqn:EC. destruct q.
    + lb H. apply (I6 _ _ _ _ text) in H; [exact H |]. clear H.
      destruct (lchar_true 58 _ _ ltac:(discriminate) EC) as (w1 & -> & FW1).
      destruct (I1 [] _ _ _ (or_introl eq_refl) E) as (w2 & s2 & e2 & u2 & E1 & F2 & S2 & G2 & D2). cbn [app] in E1. subst r1.
      destruct HC as (w & s & e & u & -> & FW & C & G & D).
      assert (G' : gap e (u ++ w1)).
      { destruct G as [G3 G4]. split; [auto |]. intros He. rewrite (G4 He). specialize (D He).
        destruct w1 as [| z w1]; [reflexivity |]. exfalso. assert (Z : is_ws z = true) by (apply is_ws_blank; now inversion FW1).
        cbn [app drop_ws] in D. rewrite Z in D.
        match type of D with drop_ws ?x = _ => destruct (drop_ws x) as [| y qq] eqn:DQ end; [discriminate |].
        injection D as -> _. rewrite (drop_ws_hd _ _ _ DQ) in Z. discriminate. }
      exists w, (s ++ (u ++ w1) ++ 58 :: w2 ++ s2), e2, u2.
      split; [na |]. split; [exact FW |].
      split; [eapply C_more; eauto | auto].
    + injection H as <- <-. apply lchar_false in EC. destruct HC as (w & s & e & u & -> & FW & C & G & D).
      destruct (drop_ws_blanks r) as (w1 & E1 & F1). rewrite <- EC in E1.
      exists w, s, e, (u ++ w1). split; [rewrite E1 at 1; na |]. split; [exact FW |]. split; [exact C |].
      split.
      * destruct G as [G3 G4]. split; [auto |]. intros He. rewrite (G4 He). specialize (D He). rewrite D in EC. subst r1.
        cbn [app]. apply (f_equal (@length N)) in E1. rewrite app_length in E1. destruct w1; [reflexivity | cbn [length] in E1; lia].
      * intros _. rewrite EC. apply drop_ws_idem.
Qed.
