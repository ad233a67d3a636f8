From Verif Require Import Base AlgParser AlgSyntax AlgListProofs AlgSoundProofs.
Local Open Scope N_scope.

Scheme single_ind2 := Minimality for single Sort Prop
  with arguments_ind2 := Minimality for arguments Sort Prop
  with more_ind2 := Minimality for more Sort Prop
  with argument_ind2 := Minimality for argument Sort Prop
  with chained_ind2 := Minimality for chained Sort Prop.
Combined Scheme grammar_ind from single_ind2, arguments_ind2, more_ind2, argument_ind2, chained_ind2.

(** *** How a piece begins *)
Definition begins (s : list N) : Prop := exists c s', s = c :: s' /\ (c = 34 \/ c = 39 \/ numeric c \/ letter c).
Lemma identifier_begins : forall n, identifier n -> begins n.
Proof. intros n (c & r & -> & L & _). exists c, r. tauto. Qed.
Lemma boolean_identifier : forall n, boolean n -> identifier n.
Proof.
  intros n [-> | ->].
  - exists 116, [114; 117; 101]. split; [reflexivity |]. unfold letter. split; [lia |]. repeat (apply Forall_cons; [left; lia |]). apply Forall_nil.
  - exists 102, [97; 108; 115; 101]. split; [reflexivity |]. unfold letter. split; [lia |]. repeat (apply Forall_cons; [left; lia |]). apply Forall_nil.
Qed.
Lemma begins_app : forall s r, begins s -> begins (s ++ r).
Proof. intros s r (c & s' & -> & H). exists c, (s' ++ r). auto. Qed.
Lemma single_begins : forall s v e, single s v e -> begins s.
Proof.
  intros s v e H. destruct H.
  - exists 34, (s ++ [34]). auto.
  - exists 39, (s ++ [39]). auto.
  - exists c, s. auto.
  - apply identifier_begins, boolean_identifier. assumption.
  - apply identifier_begins. assumption.
  - apply begins_app, identifier_begins. assumption.
Qed.
Lemma chained_begins : forall s v e, chained s v e -> begins s.
Proof. induction 1; [eapply single_begins; eassumption | apply begins_app; assumption]. Qed.
Lemma begins_char : forall c, (c = 34 \/ c = 39 \/ numeric c \/ letter c) -> is_ws c = false /\ c <> 41 /\ c <> 44 /\ c <> 40 /\ c <> 0.
Proof.
  intros c H. unfold numeric, letter, digit in H. split; [| lia].
  destruct (is_ws c) eqn:E; [| reflexivity]. apply is_ws_blank in E. unfold blank in E. cbn [In] in E. lia.
Qed.
Lemma begins_hd : forall s, begins s -> exists c s', s = c :: s' /\ drop_ws s = s /\ c <> 41 /\ c <> 44 /\ c <> 40.
Proof.
  intros s (c & s' & -> & H). destruct (begins_char c H) as (W & A & B & D & _). exists c, s'. cbn [drop_ws]. rewrite W. auto.
Qed.
Lemma argument_nonblank : forall s a e, argument s a e -> exists w s', s = w ++ s' /\ blanks w /\ begins s'.
Proof.
  intros s a e H. destruct H as [w s v e HW C | w k w1 w2 s v e HW K H1 H2 C].
  - exists w, s. split; [reflexivity |]. split; [exact HW |]. eapply chained_begins; eassumption.
  - exists w, (k ++ w1 ++ 61 :: w2 ++ s). split; [reflexivity |]. split; [exact HW |]. apply begins_app, identifier_begins, K.
Qed.

(** *** Sizes, for termination *)
Lemma drop_ws_len : forall r, (length (drop_ws r) <= length r)%nat.
Proof. intros r. destruct (drop_ws_split r) as (w & E & _). apply (f_equal (@length N)) in E. rewrite app_length in E. lia. Qed.
Lemma lchar_len : forall acc r, (length (snd (lchar acc r)) <= length r)%nat /\ (fst (lchar acc r) = true -> (length (snd (lchar acc r)) < length r)%nat).
Proof.
  intros acc r. unfold lchar, lpeek. destruct r as [| c r]; [cbn; split; [lia | discriminate] |].
  assert (L := drop_ws_len (c :: r)). destruct (acc (hd 0 (drop_ws (c :: r)))); cbn [fst snd].
  - destruct (drop_ws (c :: r)); cbn [tl length] in *; lia.
  - split; [exact L | discriminate].
Qed.
Lemma lident_len : forall r, (length (fst (lident r)) + length (snd (lident r)) <= length r)%nat.
Proof.
  intros r. unfold lident. assert (L := drop_ws_len r). destruct (drop_ws r) as [| c q]; [cbn; lia |].
  destruct (id_start c); [| cbn [fst snd length] in *; lia]. assert (SP := span_app id_char q).
  destruct (span id_char q) as [a b]. cbn [fst snd length] in *. apply (f_equal (@length N)) in SP. rewrite app_length in SP. lia.
Qed.
Lemma arg_consumes : forall fuel r a r', larg fuel r = LOk a r' -> (length r' < length r)%nat.
Proof.
  intros fuel r a r' H. destruct (sound_all fuel) as (_ & _ & _ & I4 & _ & _). destruct (I4 _ _ _ H) as (s & e & u & -> & A & _ & _).
  destruct (argument_nonblank _ _ _ A) as (w & s' & -> & _ & (c & q & -> & _)). rewrite !app_length. cbn [length]. lia.
Qed.
Lemma single_len : forall fuel al r v r', ident_or_nil al -> lsingle fuel al r = LOk v r' -> (length r' <= length r)%nat.
Proof.
  (* the rest is a suffix of what was given *)
  assert (AUX : forall fuel,
    (forall al r v r', lsingle fuel al r = LOk v r' -> (length r' <= length r)%nat) /\
    (forall nm r v r', lnamed fuel nm r = LOk v r' -> (length r' <= length r)%nat) /\
    (forall b r v r', largs fuel b r = LOk v r' -> (length r' <= length r)%nat) /\
    (forall r v r', larg fuel r = LOk v r' -> (length r' <= length r)%nat) /\
    (forall al r v r', lvalue fuel al r = LOk v r' -> (length r' <= length r)%nat) /\
    (forall v0 r v r', lchain fuel v0 r = LOk v r' -> (length r' <= length r)%nat)).
  { induction fuel as [| fuel (I1 & I2 & I3 & I4 & I5 & I6)]; [repeat split; intros; discriminate |].
    assert (LS : forall d q s q1, lstr d q = Some (s, q1) -> (length q1 <= length q)%nat).
    { intros d q s q1 H. apply lstr_some in H as [-> _]. rewrite app_length. cbn [length]. lia. }
    split; [| split; [| split; [| split; [| split]]]].
    - intros al r v r' H. cbn [lsingle] in H. assert (L := drop_ws_len r). set (q := drop_ws r) in *. clearbody q.
      destruct al; [| apply I2 in H; lia].
      destruct (fst (lpeek (ch 34) q)).
      { destruct (lstr 34 (tl q)) as [[s q1] |] eqn:E; [| discriminate]. cbn in H. injection H as <- <-. apply LS in E. destruct q; cbn [tl length] in *; lia. }
      destruct (fst (lpeek (ch 39) q)).
      { destruct (lstr 39 (tl q)) as [[s q1] |] eqn:E; [| discriminate]. cbn in H. injection H as <- <-. apply LS in E. destruct q; cbn [tl length] in *; lia. }
      destruct (fst (lpeek is_num q)).
      { destruct (lnum q) as [[s q1] |] eqn:E; [| discriminate]. cbn in H. injection H as <- <-. apply lnum_some in E as (-> & _). rewrite app_length in L. lia. }
      assert (LI := lident_len q). destruct (lident q) as [[| b nm] q1]; [discriminate |]. cbn [fst snd] in LI. apply I2 in H. lia.
    - intros nm r v r' H. cbn [lnamed] in H. destruct (is_boolean nm); [injection H as <- <-; lia |].
      assert (L := drop_ws_len r). destruct (lchar_len (ch 40) (drop_ws r)) as [L1 _]. destruct (lchar (ch 40) (drop_ws r)) as [b q]. cbn [fst snd] in *.
      destruct b; [| injection H as <- <-; lia]. lb H. injection H as <- <-. apply I3 in E. lia.
    - intros b r v r' H. cbn [largs] in H. assert (L := drop_ws_len r). destruct (lchar_len (ch 41) (drop_ws r)) as [L1 _].
      destruct (lchar (ch 41) (drop_ws r)) as [q r1]. cbn [fst snd] in *. destruct q; [injection H as <- <-; lia |].
      assert (L2 : (length (snd (if b then (true, r1) else lchar (ch 44) r1)) <= length r1)%nat).
      { destruct b; [cbn; lia | apply lchar_len]. }
      destruct (if b then (true, r1) else lchar (ch 44) r1) as [go r2]. cbn [fst snd] in *. destruct go; [| discriminate].
      destruct (lchar_len (ch 41) r2) as [L3 _]. destruct (lchar (ch 41) r2) as [q r3]. cbn [fst snd] in *.
      destruct q; [injection H as <- <-; lia |]. lb H. lb H. injection H as <- <-. apply I4 in E. apply I3 in E0. lia.
    - intros r v r' H. cbn [larg] in H. assert (L := lident_len r). destruct (lident r) as [id r1]. cbn [fst snd] in *.
      assert (L2 : (length (snd (match id with [] => (false, r1) | _ :: _ => lchar (ch 61) r1 end)) <= length r1)%nat).
      { destruct id; [cbn; lia | apply lchar_len]. }
      destruct (match id with [] => (false, r1) | _ :: _ => lchar (ch 61) r1 end) as [kw r2]. cbn [fst snd] in *.
      destruct kw; lb H; injection H as <- <-; apply I5 in E; lia.
    - intros al r v r' H. cbn [lvalue] in H. lb H. apply I1 in E. apply I6 in H. lia.
    - intros v0 r v r' H. cbn [lchain] in H. destruct (lchar_len (ch 58) r) as [L _]. destruct (lchar (ch 58) r) as [q r1]. cbn [fst snd] in *.
      destruct q; [| injection H as <- <-; lia]. lb H. apply I1 in E. apply I6 in H. lia. }
  intros fuel al r v r' _ H. destruct (AUX fuel) as (A1 & _). eapply A1. exact H.
Qed.

Lemma bind_nofuel : forall A B (m : lres A) (k : A -> list N -> lres B), m <> LFuel ->
  (forall a r, m = LOk a r -> k a r <> LFuel) -> lbind m k <> LFuel.
Proof. intros A B [a r | |] k H K; cbn; [apply K; reflexivity | discriminate | congruence]. Qed.
Lemma ok_nofuel : forall A (a : A) r, LOk a r <> LFuel.
Proof. discriminate. Qed.

Lemma terminates_all : forall fuel,
  (forall al r, (6 * length r + 2 <= fuel)%nat -> lsingle fuel al r <> LFuel) /\
  (forall nm r, (6 * length r + 1 <= fuel)%nat -> lnamed fuel nm r <> LFuel) /\
  (forall b r, (6 * length r + 6 <= fuel)%nat -> largs fuel b r <> LFuel) /\
  (forall r, (6 * length r + 4 <= fuel)%nat -> larg fuel r <> LFuel) /\
  (forall al r, ident_or_nil al -> (6 * length r + 3 <= fuel)%nat -> lvalue fuel al r <> LFuel) /\
  (forall v r, (6 * length r + 1 <= fuel)%nat -> lchain fuel v r <> LFuel).
Proof.
  induction fuel as [| fuel (I1 & I2 & I3 & I4 & I5 & I6)]; [repeat split; intros; lia |].
  split; [| split; [| split; [| split; [| split]]]].
  - intros al r HF. cbn [lsingle]. assert (L := drop_ws_len r). set (q := drop_ws r) in *. clearbody q.
    destruct al; [| apply I2; lia].
    destruct (fst (lpeek (ch 34) q)); [destruct (lstr 34 (tl q)) as [[s q1] |]; discriminate |].
    destruct (fst (lpeek (ch 39) q)); [destruct (lstr 39 (tl q)) as [[s q1] |]; discriminate |].
    destruct (fst (lpeek is_num q)); [destruct (lnum q) as [[s q1] |]; discriminate |].
    assert (LI := lident_len q). destruct (lident q) as [[| b nm] q1]; [discriminate |]. cbn [fst snd] in LI. apply I2. lia.
  - intros nm r HF. cbn [lnamed]. destruct (is_boolean nm); [discriminate |].
    assert (L := drop_ws_len r). destruct (lchar_len (ch 40) (drop_ws r)) as [_ L1]. destruct (lchar (ch 40) (drop_ws r)) as [b q]. cbn [fst snd] in *.
    destruct b; [| discriminate]. specialize (L1 eq_refl). apply bind_nofuel; [apply I3; lia | discriminate].
  - intros b r HF. cbn [largs]. assert (L := drop_ws_len r). destruct (lchar_len (ch 41) (drop_ws r)) as [L1 _].
    destruct (lchar (ch 41) (drop_ws r)) as [q r1]. cbn [fst snd] in *. destruct q; [discriminate |].
    assert (L2 : (length (snd (if b then (true, r1) else lchar (ch 44) r1)) <= length r1)%nat).
    { destruct b; [cbn; lia | apply lchar_len]. }
    destruct (if b then (true, r1) else lchar (ch 44) r1) as [go r2]. cbn [fst snd] in *. destruct go; [| discriminate].
    destruct (lchar_len (ch 41) r2) as [L3 _]. destruct (lchar (ch 41) r2) as [q r3]. cbn [fst snd] in *.
    destruct q; [discriminate |]. apply bind_nofuel; [apply I4; lia |]. intros a r4 E. apply arg_consumes in E.
    apply bind_nofuel; [apply I3; lia | discriminate].
  - intros r HF. cbn [larg]. assert (L := lident_len r). assert (ID : ident_or_nil (fst (lident r))).
    { destruct (lident r) as [[| c n] q] eqn:E; [left; reflexivity |]. right.
      destruct (lident_some _ _ _ E ltac:(discriminate)) as (w & _ & _ & I). exact I. }
    destruct (lident r) as [id r1]. cbn [fst snd] in *.
    assert (L2 : (length (snd (match id with [] => (false, r1) | _ :: _ => lchar (ch 61) r1 end)) <= length r1)%nat).
    { destruct id; [cbn; lia | apply lchar_len]. }
    destruct (match id with [] => (false, r1) | _ :: _ => lchar (ch 61) r1 end) as [kw r2]. cbn [fst snd] in *.
    destruct kw; (apply bind_nofuel; [apply I5; [first [left; reflexivity | exact ID] | lia] | discriminate]).
  - intros al r HA HF. cbn [lvalue]. apply bind_nofuel; [apply I1; lia |]. intros a r1 E. apply single_len in E; [| exact HA]. apply I6. lia.
  - intros v r HF. cbn [lchain]. destruct (lchar_len (ch 58) r) as [_ L]. destruct (lchar (ch 58) r) as [q r1]. cbn [fst snd] in *.
    destruct q; [| discriminate]. specialize (L eq_refl). apply bind_nofuel; [apply I1; lia |]. intros a r2 E.
    apply single_len in E; [| left; reflexivity]. apply I6. lia.
Qed.
