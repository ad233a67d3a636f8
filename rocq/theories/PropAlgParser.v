(** C41: algorithm strings. *)
From Verif Require Import Base AlgParser AlgSyntax AlgListProofs AlgSoundProofs AlgCompleteProofs AlgComplete2Proofs.
Local Open Scope N_scope.

Definition enough (t : list N) (fuel : nat) : Prop := (6 * length t + 3 <= fuel)%nat.
Lemma at_start : forall t, at_ t 0 t.
Proof. intros t. split; [lia | reflexivity]. Qed.
Lemma text_refines : forall fuel t, refines t (parse_text fuel t) (lvalue fuel [] t).
Proof. intros fuel t. destruct (refine_all fuel t) as (_ & _ & _ & _ & H & _). apply H. apply at_start. Qed.
Lemma text_nofuel : forall fuel t, enough t fuel -> lvalue fuel [] t <> LFuel.
Proof. intros fuel t H. destruct (terminates_all fuel) as (_ & _ & _ & _ & T & _). apply T; [left; reflexivity | exact H]. Qed.

(** C41. On every text the parser ends within a linear number of steps, returns a value or throws, and never reads
    behind the terminating NUL. *)
Theorem parser_total : forall t fuel, enough t fuel ->
  (exists v cur, parse_text fuel t = POk v cur) \/ parse_text fuel t = PErr.
Proof.
  intros t fuel H. assert (R := text_refines fuel t). assert (T := text_nofuel fuel t H).
  destruct (lvalue fuel [] t) as [v r | |]; cbn in R; [| right; exact R | congruence]. destruct R as (cur & E & _). left. eauto.
Qed.
Print Assumptions parser_total.

(** C41. What it returns is what a prefix of the text spells; so a text without such a prefix is rejected. *)
Theorem parser_sound : forall t fuel v cur, parse_text fuel t = POk v cur ->
  exists s num rest, t = s ++ rest /\ spells s v num.
Proof.
  intros t fuel v cur H. assert (R := text_refines fuel t). rewrite H in R.
  destruct (lvalue fuel [] t) as [v' r | |] eqn:E; cbn in R; try discriminate. destruct R as (c & Q & _). injection Q as <- <-.
  destruct (sound_all fuel) as (_ & _ & _ & _ & S & _). destruct (S [] t v r (or_introl eq_refl) E) as (w & s & e & u & EQ & HW & C & _ & _).
  exists (w ++ s), e, (u ++ r). split; [cbn [app] in EQ; rewrite EQ; na |]. exists w, s. auto.
Qed.
Print Assumptions parser_sound.
Theorem parser_rejects : forall t fuel, enough t fuel ->
  (forall s num rest v, t = s ++ rest -> ~ spells s v num) -> parse_text fuel t = PErr.
Proof.
  intros t fuel HF HN. destruct (parser_total t fuel HF) as [(v & cur & E) | E]; [| exact E].
  destruct (parser_sound _ _ _ _ E) as (s & num & rest & ET & SP). exfalso. exact (HN s num rest v ET SP).
Qed.
Print Assumptions parser_rejects.

Lemma ends_stop : forall e rest, ends_before e rest -> stop e rest /\ hd 0 (drop_ws rest) <> 58.
Proof.
  intros e rest H. destruct e; cbn [ends_before] in H.
  - destruct H as (c & r & -> & N1 & N2 & N3). assert (W : is_ws c = false).
    { destruct (is_ws c) eqn:E; [| reflexivity]. apply is_ws_blank in E. contradiction. }
    split; [| rewrite dw_nb by exact W; exact N3]. exists c, r. split; [reflexivity |]. split; [| exact W].
    destruct (is_num c) eqn:E; [| reflexivity]. apply is_num_numeric in E. contradiction.
  - destruct H as [H1 H2]. destruct (drop_ws_blanks rest) as (w & E & HW).
    assert (K : hd 0 (drop_ws rest) <> 40 /\ hd 0 (drop_ws rest) <> 58).
    { destruct (drop_ws rest) as [| c r]; [split; discriminate |]. cbn [hd]. eapply H2; eauto. }
    split; [split; [| tauto] | tauto].
    intros c q ER. destruct (H1 c q ER). destruct (id_char c) eqn:I; [| reflexivity]. apply id_char_ok in I. tauto.
Qed.
Lemma spelled_parsed : forall s v num rest fuel, spells s v num -> ends_before num rest -> enough (s ++ rest) fuel ->
  exists cur, parse_text fuel (s ++ rest) = POk v cur.
Proof.
  intros s v num rest fuel (w & s' & -> & HW & C) HE HF. assert (R := text_refines fuel ((w ++ s') ++ rest)).
  assert (T := text_nofuel _ _ HF). destruct (ends_stop _ _ HE) as [ST N58].
  destruct complete_all as (_ & _ & _ & _ & K). destruct (K _ _ _ C) as [K1 _].
  rewrite <- app_assoc in *. destruct (K1 w rest fuel HW ST) as [E | [f E]]; [congruence |]. rewrite E in *.
  destruct f as [| f]; [cbn in T; congruence |]. cbn [lchain] in R. rewrite lchar_miss in R by (discriminate || exact N58).
  cbn in R. destruct R as (cur & Q & _). eauto.
Qed.

(** C41. Every spelling of a value - with blanks wherever two symbols meet, either kind of quotes, a comma behind the last
    argument, colons for chains - is parsed to that value, whatever follows it. *)
Theorem parser_complete : forall s v num rest fuel,
  spells s v num -> ends_before num rest -> enough (s ++ rest) fuel ->
  exists cur, parse_text fuel (s ++ rest) = POk v cur.
Proof. exact spelled_parsed. Qed.
Print Assumptions parser_complete.
(** so no text spells two values *)
Theorem spelling_unambiguous : forall s v v' num num', spells s v num -> spells s v' num' -> v = v'.
Proof.
  intros s v v' num num' H H'. set (F := (6 * length (s ++ [41]%N) + 3)%nat).
  assert (EB : forall b, ends_before b [41]).
  { intros [|]; cbn [ends_before].
    - exists 41, []. split; [reflexivity |]. unfold numeric, digit, blank. cbn [In]. lia.
    - split.
      + intros c r E. injection E as <- <-. unfold letter, digit. lia.
      + intros w c r E HW. destruct w as [| x w]; [injection E as <- <-; lia |]. exfalso. injection E as <- E. inversion HW; subst.
        unfold blank in H2. cbn [In] in H2. lia. }
  destruct (spelled_parsed s v num [41] F H (EB num) ltac:(unfold enough, F; lia)) as [c1 E1].
  destruct (spelled_parsed s v' num' [41] F H' (EB num') ltac:(unfold enough, F; lia)) as [c2 E2]. congruence.
Qed.
Print Assumptions spelling_unambiguous.

(** " f ( 1.5, x = 'a b' , g(true,) ):h " is a spelling *)
Example spelling_ex :
  let t := [32; 102; 32; 40; 32; 49; 46; 53; 44; 32; 120; 32; 61; 32; 39; 97; 32; 98; 39; 32; 44; 32; 103; 40; 116; 114; 117; 101; 44; 41; 32; 41; 58; 104; 32] in
  let v := VInv str_chain [(None, VInv [102] [(None, VStr [49; 46; 53]); (Some [120], VStr [97; 32; 98]); (None, VInv [103] [(None, VStr str_true)])]); (None, VInv [104] [])] in
  parse_text 300 t = POk v 35 /\ print_value v =
    [99; 104; 97; 105; 110; 40; 102; 40; 34; 49; 46; 53; 34; 44; 32; 120; 32; 61; 32; 34; 97; 32; 98; 34; 44; 32; 103; 40; 34; 116; 114; 117; 101; 34; 41; 41; 44; 32; 104; 41].
Proof. split; reflexivity. Qed.

(** *** Printing *)
Lemma value_ind2 : forall P : value -> Prop,
  (forall s, P (VStr s)) -> (forall n args, (forall k v, In (k, v) args -> P v) -> P (VInv n args)) -> forall v, P v.
Proof.
  intros P H1 H2. fix IH 1. intros [s | n args]; [apply H1 |]. apply H2.
  induction args as [| [k v] args IHa]; intros k0 v0 HI; [destruct HI |]. destruct HI as [E | HI]; [| eapply IHa; exact HI].
  injection E as _ <-. apply IH.
Qed.
Definition print_arg (a : arg) : list N :=
  match a with (Some k, v) => k ++ [32; 61; 32] ++ print_value v | (None, v) => print_value v end.
Lemma print_inv : forall n a args, print_value (VInv n (a :: args)) =
  n ++ 40 :: print_arg a ++ concat (map (fun b => 44 :: 32 :: print_arg b) args) ++ [41].
Proof.
  intros n a args. cbn [print_value]. cbn [map sep]. f_equal. f_equal. destruct a as [k v]. rewrite <- app_assoc. f_equal.
  f_equal. f_equal. rewrite map_map. apply map_ext. intros [k' v']. reflexivity.
Qed.
Lemma blank1 : blanks [32].
Proof. constructor; [cbn; auto | constructor]. Qed.
Lemma print_spells : forall v, writable v -> single (print_value v) v false.
Proof.
  induction v as [s | n args IH] using value_ind2; intros HW; inversion HW; subst.
  - constructor. assumption.
  - destruct args as [| a args]; [constructor; assumption |]. rewrite print_inv.
    assert (ARG : forall k v, In (k, v) (a :: args) -> forall w, blanks w -> argument (w ++ print_arg (k, v)) (k, v) false).
    { intros k v HI w HB. assert (C : chained (print_value v) v false) by (apply C_one; eapply IH; eauto).
      destruct k as [k |]; cbn [print_arg].
      - change ([32; 61; 32] ++ print_value v) with ([32] ++ 61 :: [32] ++ print_value v).
        constructor; auto using blank1. eapply H3; eauto.
      - constructor; assumption. }
    change (40 :: print_arg a ++ concat (map (fun b => 44 :: 32 :: print_arg b) args) ++ [41])
      with ([] ++ 40 :: print_arg a ++ concat (map (fun b => 44 :: 32 :: print_arg b) args) ++ [41]).
    apply S_call; [assumption | assumption | constructor |].
    assert (MORE : forall l, incl l (a :: args) -> more (concat (map (fun b => 44 :: 32 :: print_arg b) l) ++ [41]) l).
    { induction l as [| [k v] l IHl]; intros HI; [constructor |]. cbn [map concat].
      change ((44 :: 32 :: print_arg (k, v)) ++ concat (map (fun b => 44 :: 32 :: print_arg b) l))
        with (44 :: ([32] ++ print_arg (k, v)) ++ concat (map (fun b => 44 :: 32 :: print_arg b) l)).
      cbn [app]. rewrite <- app_assoc.
      change (32 :: print_arg (k, v) ++ concat (map (fun b => 44 :: 32 :: print_arg b) l) ++ [41])
        with (([32] ++ print_arg (k, v)) ++ [] ++ (concat (map (fun b => 44 :: 32 :: print_arg b) l) ++ [41])).
      eapply M_next; [apply ARG; [apply HI; left; reflexivity | apply blank1] | split; [constructor | auto] |].
      apply IHl. intros x Hx. apply HI. right. exact Hx. }
    replace (print_arg a ++ concat (map (fun b => 44 :: 32 :: print_arg b) args) ++ [41])
      with (([] ++ print_arg a) ++ [] ++ (concat (map (fun b => 44 :: 32 :: print_arg b) args) ++ [41])) by reflexivity.
    destruct a as [k v]. eapply A_first; [apply (ARG k v); [left; reflexivity | constructor] | split; [constructor | auto] |].
    apply MORE. intros x Hx. right. exact Hx.
Qed.

(** C41. Printing a value and parsing the text gives the value back, provided names and keywords are identifiers, no name is
    true or false and no string contains a double quote. *)
Theorem print_parse : forall v fuel, writable v -> enough (print_value v) fuel ->
  exists cur, parse_text fuel (print_value v) = POk v cur.
Proof.
  intros v fuel HW HF. assert (H := spelled_parsed (print_value v) v false [] fuel). rewrite app_nil_r in H. apply H.
  - exists [], (print_value v). split; [reflexivity |]. split; [constructor |]. apply C_one, print_spells, HW.
  - split; [intros c r E; discriminate |]. intros w c r E. destruct w; discriminate.
  - exact HF.
Qed.
Print Assumptions print_parse.
Example print_parse_ex : writable (VInv [102; 49] [(Some [120], VStr [39; 32; 10]); (None, VInv [95] [])]).
Proof.
  assert (I1 : identifier [102; 49]).
  { exists 102, [49]. split; [reflexivity |]. unfold letter, digit. split; [lia |]. constructor; [lia | constructor]. }
  assert (I2 : identifier [120]) by (exists 120, []; split; [reflexivity | split; [unfold letter; lia | constructor]]).
  assert (I3 : identifier [95]) by (exists 95, []; split; [reflexivity | split; [unfold letter; lia | constructor]]).
  constructor; [exact I1 | intros [C | C]; discriminate | |].
  - intros k v [H | [H | []]]; injection H as <- _ || discriminate H. exact I2.
  - intros k v [H | [H | []]]; injection H as _ <-.
    + constructor. cbn. intuition discriminate.
    + constructor; [exact I3 | intros [C | C]; discriminate | |]; intros k0 v0 [].
Qed.

(** C41, outside of that: a string with a double quote comes back as another value, what follows a complete value is ignored,
    a blank behind a number becomes part of the value, and a number at the end of the text is refused. *)
Theorem parser_limits_refuted :
  parse_text 100 (print_value (VInv [102] [(None, VStr [34; 44; 34])])) =
    POk (VInv [102] [(None, VStr []); (None, VStr [])]) 8 /\
  parse_text 100 [102; 40; 41; 41; 41; 103] = POk (VInv [102] []) 3 /\
  parse_text 100 [102; 40; 53; 32; 41] = POk (VInv [102] [(None, VStr [53; 32])]) 5 /\
  parse_text 100 [102; 40; 53; 41] = POk (VInv [102] [(None, VStr [53])]) 4 /\
  parse_text 100 [53] = PErr /\ parse_text 100 [53; 32] = POk (VStr [53; 32]) 2.
Proof. repeat split. Qed.
Print Assumptions parser_limits_refuted.
