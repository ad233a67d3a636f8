(** The parser on the list of the remaining characters, and that the cursor-based one does the same. *)
From Verif Require Import Base AlgParser.
Local Open Scope N_scope.

Fixpoint drop_ws (r : list N) : list N :=
  match r with [] => [] | c :: r' => if is_ws c then drop_ws r' else r end.
Definition lpeek (acc : N -> bool) (r : list N) : bool * list N :=
  match r with [] => (false, []) | _ => (acc (hd 0 (drop_ws r)), drop_ws r) end.
Definition lchar (acc : N -> bool) (r : list N) : bool * list N :=
  let '(b, r) := lpeek acc r in (b, if b then tl r else r).
Fixpoint span (p : N -> bool) (r : list N) : list N * list N :=
  match r with
  | [] => ([], [])
  | c :: r' => if p c then let '(a, b) := span p r' in (c :: a, b) else ([], r)
  end.
Definition lident (r : list N) : list N * list N :=
  match drop_ws r with
  | [] => ([], [])
  | c :: r' => if id_start c then let '(a, b) := span id_char r' in (c :: a, b) else ([], c :: r')
  end.
Fixpoint lstr (d : N) (r : list N) : option (list N * list N) :=
  match r with
  | [] => None
  | c :: r => if c =? d then Some ([], r) else match lstr d r with Some (s, r) => Some (c :: s, r) | None => None end
  end.
Definition lnum (r : list N) : option (list N * list N) :=
  let '(p, q) := span (fun c => is_num c || is_ws c) r in
  match q with [] => if is_ws (last p 0) then Some (p, []) else None | _ => Some (p, q) end.

Inductive lres (A : Type) := LOk (a : A) (r : list N) | LErr | LFuel.
Arguments LOk {A}. Arguments LErr {A}. Arguments LFuel {A}.
Definition lbind {A B} (m : lres A) (k : A -> list N -> lres B) : lres B :=
  match m with LOk a r => k a r | LErr => LErr | LFuel => LFuel end.
Definition lopt {A} (o : option (A * list N)) : lres A := match o with Some (a, r) => LOk a r | None => LErr end.

Fixpoint lsingle (fuel : nat) (already : list N) (r : list N) : lres value :=
  match fuel with
  | O => LFuel
  | S f =>
      let r := drop_ws r in
      match already with
      | _ :: _ => lnamed f already r
      | [] =>
          if fst (lpeek (ch 34) r) then lbind (lopt (lstr 34 (tl r))) (fun s r => LOk (VStr s) r) else
          if fst (lpeek (ch 39) r) then lbind (lopt (lstr 39 (tl r))) (fun s r => LOk (VStr s) r) else
          if fst (lpeek is_num r) then lbind (lopt (lnum r)) (fun s r => LOk (VStr s) r) else
          let '(name, r) := lident r in
          match name with [] => LErr | _ => lnamed f name r end
      end
  end
with lnamed (fuel : nat) (name : list N) (r : list N) : lres value :=
  match fuel with
  | O => LFuel
  | S f =>
      if is_boolean name then LOk (VStr name) r else
      let '(q, r) := lchar (ch 40) (drop_ws r) in
      if q then lbind (largs f true r) (fun args r => LOk (VInv name args) r) else LOk (VInv name []) r
  end
with largs (fuel : nat) (first : bool) (r : list N) : lres (list arg) :=
  match fuel with
  | O => LFuel
  | S f =>
      let '(q, r) := lchar (ch 41) (drop_ws r) in
      if q then LOk [] r else
      let '(go, r) := if first then (true, r) else lchar (ch 44) r in
      if go then
        let '(q, r) := lchar (ch 41) r in
        if q then LOk [] r else
        lbind (larg f r) (fun a r => lbind (largs f false r) (fun l r => LOk (a :: l) r))
      else LErr
  end
with larg (fuel : nat) (r : list N) : lres arg :=
  match fuel with
  | O => LFuel
  | S f =>
      let '(ident, r) := lident r in
      let '(kw, r) := match ident with [] => (false, r) | _ => lchar (ch 61) r end in
      if kw then lbind (lvalue f [] r) (fun v r => LOk (Some ident, v) r)
      else lbind (lvalue f ident r) (fun v r => LOk (None, v) r)
  end
with lvalue (fuel : nat) (already : list N) (r : list N) : lres value :=
  match fuel with
  | O => LFuel
  | S f => lbind (lsingle f already r) (fun v r => lchain f v r)
  end
with lchain (fuel : nat) (v : value) (r : list N) : lres value :=
  match fuel with
  | O => LFuel
  | S f =>
      let '(q, r) := lchar (ch 58) r in
      if q then lbind (lsingle f [] r) (fun v2 r => lchain f (VInv str_chain [(None, v); (None, v2)]) r)
      else LOk v r
  end.

(** *** Refinement *)
Definition at_ (t : list N) (cur : nat) (r : list N) : Prop := (cur <= length t)%nat /\ skipn cur t = r.
Definition refines {A} (t : list N) (p : pres A) (l : lres A) : Prop :=
  match l with
  | LOk a r => exists cur, p = POk a cur /\ at_ t cur r
  | LErr => p = PErr
  | LFuel => p = PFuel
  end.

Lemma refines_bind : forall A B t (p : pres A) (l : lres A) (k : A -> nat -> pres B) (k' : A -> list N -> lres B),
  refines t p l -> (forall a cur r, at_ t cur r -> refines t (k a cur) (k' a r)) -> refines t (pbind p k) (lbind l k').
Proof.
  intros A B t p l k k' H K. destruct l as [a r | |]; cbn in H |- *.
  - destruct H as (cur & -> & H). cbn. auto.
  - now rewrite H.
  - now rewrite H.
Qed.
Lemma at_cons : forall t cur c r, at_ t cur (c :: r) -> rd t cur = Some c /\ at_ t (S cur) r /\ has_next t cur = true.
Proof.
  intros t cur c r [H1 H2]. unfold at_, rd, has_next.
  assert (L : length (skipn cur t) = (length t - cur)%nat) by apply skipn_length. rewrite H2 in L. cbn [length] in L.
  assert (NE : nth_error t cur = Some c).
  { revert H2. clear. revert t. induction cur; intros t H2; destruct t; cbn in *; try discriminate; [now injection H2 as -> _ | auto]. }
  split; [rewrite nth_error_app1 by lia; exact NE |]. split; [split; [lia |] | apply Nat.ltb_lt; lia].
  revert H2. clear. revert t. induction cur; intros t H; destruct t; cbn in *; try discriminate; try congruence. auto.
Qed.
Lemma at_nil : forall t cur, at_ t cur [] -> cur = length t /\ rd t cur = Some 0 /\ has_next t cur = false.
Proof.
  intros t cur [H1 H2]. assert (L : length (skipn cur t) = (length t - cur)%nat) by apply skipn_length. rewrite H2 in L. cbn in L.
  assert (cur = length t) by lia. subst. split; [reflexivity |]. split.
  - unfold rd. rewrite nth_error_app2 by lia. rewrite Nat.sub_diag. reflexivity.
  - apply Nat.ltb_ge. lia.
Qed.
Lemma at_rd : forall t cur r, at_ t cur r -> rd t cur = Some (hd 0 r).
Proof. intros t cur [| c r] H; [apply (at_nil t cur H) | apply (at_cons t cur c r H)]. Qed.

Lemma at_app : forall t w cur r, at_ t cur (w ++ r) -> at_ t (cur + length w) r.
Proof.
  induction w as [| c w IH]; intros cur r H; cbn [length app] in *; [rewrite Nat.add_0_r; exact H |].
  apply at_cons in H. destruct H as (_ & H & _). rewrite <- Nat.add_succ_comm. auto.
Qed.
Lemma at_sl : forall t w cur r, at_ t cur (w ++ r) -> sl t cur (cur + length w) = w.
Proof.
  intros t w cur r [H1 H2]. unfold sl. rewrite H2. replace (cur + length w - cur)%nat with (length w) by lia.
  rewrite firstn_app, firstn_all, Nat.sub_diag, firstn_O, app_nil_r. reflexivity.
Qed.
Lemma at_len : forall t cur r, at_ t cur r -> (cur + length r = length t)%nat.
Proof. intros t cur r [H1 H2]. rewrite <- H2, skipn_length. lia. Qed.

Lemma drop_ws_split : forall r, exists w, r = w ++ drop_ws r /\ forallb is_ws w = true.
Proof.
  induction r as [| c r [w [E F]]]; [exists []; auto |]. cbn [drop_ws]. destruct (is_ws c) eqn:W; [| exists []; auto].
  exists (c :: w). cbn [app forallb]. rewrite W, F. split; [congruence | reflexivity].
Qed.
Lemma drop_ws_hd : forall r c r', drop_ws r = c :: r' -> is_ws c = false.
Proof.
  induction r as [| a r IH]; intros c r' H; cbn [drop_ws] in H; [discriminate |].
  destruct (is_ws a) eqn:W; [eauto |]. injection H as -> _. exact W.
Qed.
Lemma drop_ws_idem : forall r, drop_ws (drop_ws r) = drop_ws r.
Proof.
  intros r. destruct (drop_ws r) as [| c r'] eqn:E; [reflexivity |]. cbn [drop_ws]. rewrite (drop_ws_hd _ _ _ E). reflexivity.
Qed.
Lemma drop_ws_app : forall w r, forallb is_ws w = true -> drop_ws (w ++ r) = drop_ws r.
Proof. induction w as [| c w IH]; intros r H; [reflexivity |]. cbn in H |- *. apply andb_prop in H as [-> H]. auto. Qed.

Lemma ws_loop_ok : forall t r fuel cur, at_ t cur r -> (length r < fuel)%nat ->
  exists cur', ws_loop fuel t cur = POk tt cur' /\ at_ t cur' (drop_ws r).
Proof.
  intros t. induction r as [| c r IH]; intros fuel cur H HF; (destruct fuel as [| fuel]; [cbn in HF; lia |]); cbn [ws_loop drop_ws].
  - destruct (at_nil _ _ H) as (_ & -> & _). exists cur. auto.
  - destruct (at_cons _ _ _ _ H) as (-> & H' & _). destruct (is_ws c).
    + apply IH; [exact H' | cbn [length] in HF; lia].
    + exists cur. auto.
Qed.
Lemma parse_ws_ok : forall t r cur, at_ t cur r -> exists cur', parse_ws t cur = POk tt cur' /\ at_ t cur' (drop_ws r).
Proof.
  intros t r cur H. unfold parse_ws. destruct r as [| c r].
  - destruct (at_nil _ _ H) as (_ & _ & ->). exists cur. auto.
  - destruct (at_cons _ _ _ _ H) as (_ & _ & ->). apply ws_loop_ok; [exact H |]. apply at_len in H. lia.
Qed.
Lemma peek_ok : forall t acc r cur, at_ t cur r ->
  exists cur', peek_char t acc cur = POk (fst (lpeek acc r)) cur' /\ at_ t cur' (snd (lpeek acc r)).
Proof.
  intros t acc r cur H. unfold peek_char, lpeek. destruct r as [| c r].
  - destruct (at_nil _ _ H) as (_ & _ & ->). exists cur. auto.
  - destruct (at_cons _ _ _ _ H) as (_ & _ & ->). destruct (parse_ws_ok _ _ _ H) as (cur' & -> & H'). cbn [pbind].
    rewrite (at_rd _ _ _ H'). exists cur'. auto.
Qed.
Lemma char_ok : forall t acc r cur, acc 0 = false -> at_ t cur r ->
  exists cur', parse_char t acc cur = POk (fst (lchar acc r)) cur' /\ at_ t cur' (snd (lchar acc r)).
Proof.
  intros t acc r cur A0 H. unfold parse_char, lchar. destruct (peek_ok t acc r cur H) as (cur' & -> & H'). cbn [pbind].
  destruct (lpeek acc r) as [b r'] eqn:E. cbn [fst snd] in *. destruct b; [| eauto].
  exists (S cur'). split; [reflexivity |]. destruct r' as [| c r'].
  - unfold lpeek in E. destruct r as [| x r]; [discriminate |]. injection E as E1 E2. rewrite E2 in E1. cbn in E1. congruence.
  - apply at_cons in H'. tauto.
Qed.

Lemma ident_loop_ok : forall t r fuel cur, at_ t cur r -> (length r < fuel)%nat ->
  exists cur', ident_loop fuel t cur = POk tt cur' /\ at_ t cur' (snd (span id_char r)) /\ sl t cur cur' = fst (span id_char r) /\
    cur' = (cur + length (fst (span id_char r)))%nat.
Proof.
  intros t. induction r as [| c r IH]; intros fuel cur H HF; (destruct fuel as [| fuel]; [cbn in HF; lia |]); cbn [ident_loop span].
  - destruct (at_nil _ _ H) as (_ & _ & ->). exists cur. split; [reflexivity |]. split; [exact H |]. unfold sl. rewrite Nat.sub_diag. cbn [fst length]. split; [reflexivity | lia].
  - destruct (at_cons _ _ _ _ H) as (-> & H' & ->). destruct (id_char c) eqn:IC.
    + destruct (IH fuel (S cur) H' ltac:(cbn [length] in HF; lia)) as (cur' & E & A & B & D). exists cur'. rewrite E.
      split; [reflexivity |]. destruct (span id_char r) as [a b] eqn:SP. cbn [fst snd] in *. split; [exact A |].
      assert (SR : r = a ++ b).
      { clear - SP. revert a b SP. induction r as [| x r IH]; intros a b SP; cbn in SP; [injection SP as <- <-; reflexivity |].
        destruct (id_char x); [| injection SP as <- <-; reflexivity]. destruct (span id_char r) as [a' b'].
        injection SP as <- <-. cbn. f_equal. apply IH. reflexivity. }
      subst r. split; [| cbn [length]; lia]. subst cur'. replace (S cur + length a)%nat with (cur + length (c :: a))%nat by (cbn [length]; lia).
      apply (at_sl t (c :: a) cur b). exact H.
    + exists cur. split; [reflexivity |]. cbn [fst snd]. split; [exact H |]. unfold sl. rewrite Nat.sub_diag. cbn [length]. split; [reflexivity | lia].
Qed.
Lemma span_app : forall p r, r = fst (span p r) ++ snd (span p r).
Proof.
  induction r as [| c r IH]; cbn [span]; [reflexivity |]. destruct (p c); [| reflexivity].
  destruct (span p r) as [a b]. cbn [fst snd app] in *. congruence.
Qed.
Lemma parse_ident_ok : forall t r cur, at_ t cur r ->
  exists cur', parse_ident t cur = POk (fst (lident r)) cur' /\ at_ t cur' (snd (lident r)).
Proof.
  intros t r cur H. unfold parse_ident, lident. destruct (parse_ws_ok _ _ _ H) as (c1 & -> & H1). cbn [pbind].
  destruct (drop_ws r) as [| c r'].
  - destruct (at_nil _ _ H1) as (_ & _ & ->). exists c1. auto.
  - destruct (at_cons _ _ _ _ H1) as (-> & H2 & ->). destruct (id_start c); [| exists c1; auto].
    destruct (ident_loop_ok t r' (S (length t)) (S c1) H2) as (c2 & -> & A & B & D); [apply at_len in H2; lia |]. cbn [pbind].
    exists c2. assert (SP := span_app id_char r'). destruct (span id_char r') as [a b]. cbn [fst snd] in *. split; [| exact A].
    f_equal. rewrite D. replace (S c1 + length a)%nat with (c1 + length (c :: a))%nat by (cbn [length]; lia).
    apply (at_sl t (c :: a) c1 b). rewrite SP in H1. exact H1.
Qed.

(** strings between quotes *)
Lemma lstr_ws : forall d w r, forallb is_ws w = true -> is_ws d = false ->
  lstr d (w ++ r) = match lstr d r with Some (s, r') => Some (w ++ s, r') | None => None end.
Proof.
  induction w as [| c w IH]; intros r HW HD; cbn [app lstr].
  - destruct (lstr d r) as [[s r'] |]; reflexivity.
  - cbn [forallb] in HW. apply andb_prop in HW as [H1 H2]. destruct (c =? d) eqn:E; [apply N.eqb_eq in E; congruence |].
    rewrite IH by assumption. destruct (lstr d r) as [[s r'] |]; reflexivity.
Qed.
Lemma string_loop_enc : forall t d n p r fuel start cur, is_ws d = false -> d <> 0 ->
  at_ t start (p ++ r) -> cur = (start + length p)%nat -> (length r <= n)%nat -> (length r < fuel)%nat ->
  match lstr d r with
  | Some (s, r') => exists cur', string_loop fuel t (ch d) true start cur = POk (p ++ s) cur' /\ at_ t cur' r'
  | None => string_loop fuel t (ch d) true start cur = PErr
  end.
Proof.
  intros t d. induction n as [| n IH]; intros p r fuel start cur HW D0 HP HC HN HF.
  - destruct r; [| cbn in HN; lia]. cbn [lstr]. destruct fuel as [| fuel]; [lia |]. cbn [string_loop].
    rewrite app_nil_r in HP. apply at_len in HP. unfold has_next. destruct (Nat.ltb_spec cur (length t)); [lia | reflexivity].
  - assert (HA : at_ t cur r) by (subst cur; apply at_app; exact HP).
    destruct fuel as [| fuel]; [lia |]. cbn [string_loop].
    destruct r as [| c r]; [destruct (at_nil _ _ HA) as (_ & _ & ->); reflexivity |].
    destruct (at_cons _ _ _ _ HA) as (_ & _ & ->).
    unfold parse_char. destruct (peek_ok t (ch d) _ _ HA) as (c1 & -> & H1). cbn [pbind lpeek fst snd] in *.
    destruct (drop_ws_split (c :: r)) as (w & EW & FW). set (r1 := drop_ws (c :: r)) in *.
    rewrite EW. rewrite lstr_ws by assumption.
    assert (HA1 : at_ t (cur + length w) r1) by (apply at_app; rewrite <- EW; exact HA).
    assert (C1 : c1 = (cur + length w)%nat) by (apply at_len in H1, HA1; lia).
    destruct r1 as [| x r1]; cbn [hd lstr].
    + unfold ch. replace (0 =? d) with false by (symmetry; apply N.eqb_neq; congruence).
      apply at_len in HA1. cbn [length] in HA1. destruct fuel as [| fuel].
      { exfalso. cbn [length] in HF. lia. }
      cbn [string_loop]. unfold has_next. destruct (Nat.ltb_spec (S c1) (length t)); [lia | reflexivity].
    + destruct (at_cons _ _ _ _ HA1) as (_ & H2 & _). change (ch d x) with (x =? d). destruct (x =? d) eqn:XD.
      * exists (S c1). split; [| subst c1; exact H2]. f_equal. replace (S c1 - 1)%nat with c1 by lia.
        rewrite app_nil_r. subst c1 cur. replace (start + length p + length w)%nat with (start + length (p ++ w))%nat by (rewrite app_length; lia).
        apply (at_sl t (p ++ w) start (x :: r1)). rewrite <- app_assoc. rewrite <- EW. exact HP.
      * cbn [length] in HN, HF. assert (LW : (length r = length w + length r1)%nat).
        { apply (f_equal (@length N)) in EW. rewrite app_length in EW. cbn [length] in EW. lia. }
        specialize (IH (p ++ w ++ [x]) r1 fuel start (S c1) HW D0).
        assert (E1 : (p ++ w ++ [x]) ++ r1 = p ++ c :: r) by (rewrite EW, <- !app_assoc; reflexivity).
        rewrite E1 in IH. specialize (IH HP). 
        assert (E2 : S c1 = (start + length (p ++ w ++ [x]))%nat) by (rewrite !app_length; cbn [length]; lia).
        specialize (IH E2 ltac:(lia) ltac:(lia)). destruct (lstr d r1) as [[s r'] |]; [| exact IH].
        destruct IH as (cur' & -> & H'). exists cur'. split; [| exact H']. f_equal. rewrite <- !app_assoc. reflexivity.
Qed.

(** numbers *)
Definition nw (c : N) : bool := is_num c || is_ws c.
Lemma span_cons : forall p c r, p c = true -> span p (c :: r) = (c :: fst (span p r), snd (span p r)).
Proof. intros p c r H. cbn [span]. rewrite H. destruct (span p r). reflexivity. Qed.
Lemma span_ws_app : forall w r, forallb is_ws w = true -> span nw (w ++ r) = (w ++ fst (span nw r), snd (span nw r)).
Proof.
  induction w as [| c w IH]; intros r H; cbn [app]; [destruct (span nw r); reflexivity |].
  cbn in H. apply andb_prop in H as [H1 H2]. rewrite span_cons by (unfold nw; rewrite H1; apply orb_true_r).
  rewrite IH by exact H2. reflexivity.
Qed.
(** the loop from a place behind [p]; [ne]: whether the next character is still to be looked at *)
Lemma string_loop_num : forall t n p r fuel start cur,
  at_ t start (p ++ r) -> cur = (start + length p)%nat -> (length r <= n)%nat -> (length r < fuel)%nat ->
  match snd (span nw r), fst (span nw r) with
  | [], a => if is_ws (last a 1) then exists cur', string_loop fuel t non_num false start cur = POk (p ++ a) cur' /\ at_ t cur' []
             else string_loop fuel t non_num false start cur = PErr
  | r', a => exists cur', string_loop fuel t non_num false start cur = POk (p ++ a) cur' /\ at_ t cur' r'
  end.
Proof.
  intros t. induction n as [| n IH]; intros p r fuel start cur HP HC HN HF.
  - destruct r; [| cbn in HN; lia]. cbn [span fst snd last]. destruct fuel as [| fuel]; [lia |]. cbn [string_loop].
    rewrite app_nil_r in HP. apply at_len in HP. unfold has_next. destruct (Nat.ltb_spec cur (length t)); [lia | reflexivity].
  - assert (HA : at_ t cur r) by (subst cur; apply at_app; exact HP).
    destruct fuel as [| fuel]; [lia |]. cbn [string_loop].
    destruct r as [| c r]; [destruct (at_nil _ _ HA) as (_ & _ & ->); reflexivity |].
    destruct (at_cons _ _ _ _ HA) as (_ & _ & ->).
    destruct (peek_ok t non_num _ _ HA) as (c1 & -> & H1). cbn [pbind lpeek fst snd] in *.
    destruct (drop_ws_split (c :: r)) as (w & EW & FW). assert (WD := drop_ws_hd (c :: r)). set (r1 := drop_ws (c :: r)) in *.
    assert (HA1 : at_ t (cur + length w) r1) by (apply at_app; rewrite <- EW; exact HA).
    assert (C1 : c1 = (cur + length w)%nat) by (apply at_len in H1, HA1; lia).
    assert (SL : sl t start c1 = p ++ w).
    { subst c1 cur. replace (start + length p + length w)%nat with (start + length (p ++ w))%nat by (rewrite app_length; lia).
      apply (at_sl t (p ++ w) start r1). rewrite <- app_assoc. rewrite <- EW. exact HP. }
    rewrite EW. rewrite span_ws_app by exact FW. cbn [fst snd].
    destruct r1 as [| x r1]; cbn [hd].
    + change (non_num 0) with true. cbv iota. cbn [span fst snd]. rewrite app_nil_r in *.
      assert (LW : is_ws (last w 1) = true).
      { destruct (exists_last (l := w)) as (w' & z & ->); [destruct w; [discriminate EW | discriminate] |].
        rewrite last_last. rewrite forallb_app in FW. cbn in FW. apply andb_prop in FW as [_ FW]. now rewrite andb_true_r in FW. }
      rewrite LW. exists c1. rewrite SL. split; [reflexivity | rewrite C1; exact HA1].
    + assert (WX : is_ws x = false) by (eapply WD; reflexivity). destruct (non_num x) eqn:NX.
      * assert (nw x = false) as NWX by (unfold nw, non_num in *; destruct (is_num x); [discriminate | exact WX]).
        cbn [span]. rewrite NWX. cbn [fst snd]. rewrite app_nil_r. exists c1. rewrite SL. split; [reflexivity | rewrite C1; exact HA1].
      * assert (nw x = true) as NWX by (unfold nw, non_num in *; destruct (is_num x); [reflexivity | discriminate]).
        rewrite span_cons by exact NWX. cbn [fst snd].
        cbn [length] in HN, HF. assert (LW : (length r = length w + length r1)%nat).
        { apply (f_equal (@length N)) in EW. rewrite app_length in EW. cbn [length] in EW. lia. }
        specialize (IH (p ++ w ++ [x]) r1 fuel start (S c1)).
        assert (E1 : (p ++ w ++ [x]) ++ r1 = p ++ c :: r) by (rewrite EW, <- !app_assoc; reflexivity).
        rewrite E1 in IH. specialize (IH HP).
        assert (E2 : S c1 = (start + length (p ++ w ++ [x]))%nat) by (rewrite !app_length; cbn [length]; lia).
        specialize (IH E2 ltac:(lia) ltac:(lia)).
        assert (E3 : forall a, (p ++ w ++ [x]) ++ a = p ++ w ++ x :: a) by (intros; rewrite <- !app_assoc; reflexivity).
        rewrite E3 in IH. assert (E4 : forall a, is_ws (last a 1) = is_ws (last (w ++ x :: a) 1)).
        { intros a. destruct a as [| y a].
          - rewrite last_last. cbn [last]. rewrite WX. reflexivity.
          - destruct (exists_last (l := y :: a)) as (w' & z & ->); [discriminate |].
            replace (w ++ x :: w' ++ [z]) with ((w ++ x :: w') ++ [z]) by (rewrite <- app_assoc; reflexivity). rewrite !last_last. reflexivity. }
        rewrite E4 in IH. exact IH.
Qed.
Lemma lstr_string : forall t d r cur, is_ws d = false -> d <> 0 -> at_ t cur (d :: r) ->
  refines t (parse_string t (ch d) true cur) (lopt (lstr d r)).
Proof.
  intros t d r cur HW D0 H. unfold parse_string, parse_char. destruct (peek_ok t (ch d) _ _ H) as (c1 & -> & H1).
  cbn [lpeek fst snd drop_ws] in *. rewrite HW in *. cbn [hd pbind] in *. change (ch d d) with (d =? d). rewrite N.eqb_refl.
  apply at_cons in H1. destruct H1 as (_ & H1 & _).
  assert (F := string_loop_enc t d (length r) [] r (S (length t)) (S c1) (S c1) HW D0 H1 ltac:(cbn; lia) ltac:(lia)).
  specialize (F ltac:(apply at_len in H1; lia)). destruct (lstr d r) as [[s r'] |]; cbn [lopt refines]; exact F.
Qed.
Lemma lnum_string : forall t r cur, r <> [] -> at_ t cur r ->
  refines t (parse_string t non_num false cur) (lopt (lnum r)).
Proof.
  intros t r cur NE H. unfold parse_string, lnum. cbn [pbind].
  assert (F := string_loop_num t (length r) [] r (S (length t)) cur cur H ltac:(cbn; lia) ltac:(lia)).
  specialize (F ltac:(apply at_len in H; lia)). fold nw. assert (SP := span_app nw r). destruct (span nw r) as [a b]. cbn [fst snd app] in *.
  destruct b as [| y b]; [| exact F]. rewrite app_nil_r in SP. subst a.
  assert (E : last r 0 = last r 1) by (destruct (exists_last NE) as (w' & z & ->); now rewrite !last_last).
  rewrite E. destruct (is_ws (last r 1)); exact F.
Qed.

(** *** the mutual part *)
Lemma lpeek_at : forall acc r, drop_ws r = r -> snd (lpeek acc r) = r.
Proof. intros acc [| c r] H; cbn [lpeek snd]; [reflexivity | exact H]. Qed.
Lemma lpeek_true : forall acc r, acc 0 = false -> drop_ws r = r -> fst (lpeek acc r) = true -> exists c r', r = c :: r' /\ acc c = true.
Proof.
  intros acc [| c r] A0 D H; cbn [lpeek fst] in H; [discriminate |]. rewrite D in H. cbn [hd] in H. eauto.
Qed.
Ltac tochar t acc H :=
  let c := fresh "c" in let E := fresh "E" in let H' := fresh "H" in
  destruct (char_ok t acc _ _ ltac:(reflexivity) H) as (c & E & H'); rewrite E; cbn [pbind]; clear E.
Ltac tows H :=
  let c := fresh "c" in let E := fresh "E" in let H' := fresh "H" in
  destruct (parse_ws_ok _ _ _ H) as (c & E & H'); rewrite E; cbn [pbind]; clear E.

Lemma refine_all : forall fuel t,
  (forall already r cur, at_ t cur r -> refines t (parse_single fuel t already cur) (lsingle fuel already r)) /\
  (forall name r cur, at_ t cur r -> refines t (single_named fuel t name cur) (lnamed fuel name r)) /\
  (forall first r cur, at_ t cur r -> refines t (args_loop fuel t first cur) (largs fuel first r)) /\
  (forall r cur, at_ t cur r -> refines t (parse_arg fuel t cur) (larg fuel r)) /\
  (forall already r cur, at_ t cur r -> refines t (parse_value fuel t already cur) (lvalue fuel already r)) /\
  (forall v r cur, at_ t cur r -> refines t (chain_loop fuel t v cur) (lchain fuel v r)).
Proof.
  induction fuel as [| fuel IH]; intros t; [repeat split; intros; reflexivity |].
  destruct (IH t) as (I1 & I2 & I3 & I4 & I5 & I6). clear IH.
  assert (OK : forall A (a : A) c r, at_ t c r -> refines t (POk a c) (LOk a r)) by (intros; cbn; eauto).
  split; [| split; [| split; [| split; [| split]]]].
  - intros already r cur H. cbn [parse_single lsingle]. tows H. destruct already as [| a al]; [| apply I2; assumption].
    assert (DD := drop_ws_idem r). set (q := drop_ws r) in *. clearbody q.
    destruct (peek_ok t (ch 34) _ _ H0) as (c1 & -> & H1). cbn [pbind]. rewrite (lpeek_at _ _ DD) in H1.
    destruct (fst (lpeek (ch 34) q)) eqn:P1.
    { destruct (lpeek_true (ch 34) q eq_refl DD P1) as (x & r' & -> & X). apply N.eqb_eq in X. subst x. cbn [tl].
      apply refines_bind; [apply lstr_string; [reflexivity | discriminate | exact H1] | intros; apply OK; assumption]. }
    destruct (peek_ok t (ch 39) _ _ H1) as (c2 & -> & H2). cbn [pbind]. rewrite (lpeek_at _ _ DD) in H2.
    destruct (fst (lpeek (ch 39) q)) eqn:P2.
    { destruct (lpeek_true (ch 39) q eq_refl DD P2) as (x & r' & -> & X). apply N.eqb_eq in X. subst x. cbn [tl].
      apply refines_bind; [apply lstr_string; [reflexivity | discriminate | exact H2] | intros; apply OK; assumption]. }
    destruct (peek_ok t is_num _ _ H2) as (c3 & -> & H3). cbn [pbind]. rewrite (lpeek_at _ _ DD) in H3.
    destruct (fst (lpeek is_num q)) eqn:P3.
    { destruct (lpeek_true is_num q eq_refl DD P3) as (x & r' & -> & X).
      apply refines_bind; [apply lnum_string; [discriminate | exact H3] | intros; apply OK; assumption]. }
    unfold expect_ident. destruct (parse_ident_ok _ _ _ H3) as (c4 & -> & H4). cbn [pbind].
    destruct (lident q) as [nm r']. cbn [fst snd] in *. destruct nm; [reflexivity |]. cbn [pbind]. apply I2. exact H4.
  - intros name r cur H. cbn [single_named lnamed]. destruct (is_boolean name); [apply OK; exact H |]. tows H.
    tochar t (ch 40) H0. destruct (lchar (ch 40) (drop_ws r)) as [q r']. cbn [fst snd] in *.
    destruct q; [| apply OK; assumption]. apply refines_bind; [apply I3; assumption | intros; apply OK; assumption].
  - intros first r cur H. cbn [args_loop largs]. tows H. tochar t (ch 41) H0.
    destruct (lchar (ch 41) (drop_ws r)) as [q r1]. cbn [fst snd] in *. destruct q; [apply OK; assumption |].
    assert (GO : exists c1, (if first then POk true c0 else parse_char t (ch 44) c0) =
                   POk (fst (if first then (true, r1) else lchar (ch 44) r1)) c1 /\
                   at_ t c1 (snd (if first then (true, r1) else lchar (ch 44) r1))).
    { destruct first; [exists c0; auto |]. apply char_ok; [reflexivity | assumption]. }
    destruct GO as (c1 & -> & H2). cbn [pbind]. destruct (if first then (true, r1) else lchar (ch 44) r1) as [go r2]. cbn [fst snd] in *.
    destruct go; [| reflexivity]. tochar t (ch 41) H2. destruct (lchar (ch 41) r2) as [q r3]. cbn [fst snd] in *.
    destruct q; [apply OK; assumption |]. apply refines_bind; [apply I4; assumption |]. intros a c3 r4 H4.
    apply refines_bind; [apply I3; assumption | intros; apply OK; assumption].
  - intros r cur H. cbn [parse_arg larg]. destruct (parse_ident_ok _ _ _ H) as (c1 & -> & H1). cbn [pbind].
    destruct (lident r) as [ident r1]. cbn [fst snd] in *.
    assert (GO : exists c2, (match ident with [] => POk false c1 | _ :: _ => parse_char t (ch 61) c1 end) =
                   POk (fst (match ident with [] => (false, r1) | _ :: _ => lchar (ch 61) r1 end)) c2 /\
                   at_ t c2 (snd (match ident with [] => (false, r1) | _ :: _ => lchar (ch 61) r1 end))).
    { destruct ident; [exists c1; auto |]. apply char_ok; [reflexivity | assumption]. }
    destruct GO as (c2 & -> & H2). cbn [pbind]. destruct (match ident with [] => (false, r1) | _ :: _ => lchar (ch 61) r1 end) as [kw r2].
    cbn [fst snd] in *. destruct kw; (apply refines_bind; [apply I5; assumption | intros; apply OK; assumption]).
  - intros already r cur H. cbn [parse_value lvalue]. apply refines_bind; [apply I1; assumption | intros; apply I6; assumption].
  - intros v r cur H. cbn [chain_loop lchain]. tochar t (ch 58) H. destruct (lchar (ch 58) r) as [q r']. cbn [fst snd] in *.
    destruct q; [| apply OK; assumption]. apply refines_bind; [apply I1; assumption | intros; apply I6; assumption].
Qed.
