(** Message edits that cannot panic and keep the message well formed. *)
From Coq Require Import Lia.
From Verif Require Import Base Lib Var Value Comparator Message MessageSpec MessageProofs MessageProofs2
  EditHeader EditHeaderSpec EditHeaderProofs Mime.

(** What is kept: a well-formed non-empty tree whose header fields are counted. *)
Definition sound_msg (st : mstate) : Prop :=
  wf_deep (ms_parts st) /\ headers_size (ms_parts st) <= ms_size st.

Lemma deep_same_bodies parts parts' : length parts' = length parts ->
  (forall j p, nth_error parts j = Some p -> exists p', nth_error parts' j = Some p' /\ p_body p' = p_body p) ->
  wf_deep parts -> wf_deep parts'.
Proof.
  intros LN B WD. inversion WD as [q WF D]; subst. constructor.
  - eapply wf_same_bodies; eassumption.
  - intros p' ps I X. apply In_nth_error in I as (j & EJ).
    destruct (nth_error parts j) as [p|] eqn:EP.
    + destruct (B j p EP) as (p2 & E2 & Y). assert (p2 = p') by congruence. subst p2.
      apply (D p ps); [eapply nth_error_In; exact EP|congruence].
    + apply nth_error_None in EP. assert (j < length parts') by (apply nth_error_Some; congruence). lia.
Qed.

Lemma insert_sound st i name value last : sound_msg st -> i < length (ms_parts st) ->
  exists st', insert_header st i name value last = Some st' /\ sound_msg st' /\
    length (ms_parts st') = length (ms_parts st).
Proof.
  intros [WD SZ] H. unfold insert_header.
  destruct (nth_error (ms_parts st) i) as [p|] eqn:EP; [|apply nth_error_None in EP; lia].
  set (f := fun p => Some (set_headers _ p)).
  destruct (update_nth_spec f (ms_parts st) i p _ EP eq_refl) as (l' & U & C & A & B). rewrite U. cbn [option_map].
  eexists. split; [reflexivity|]. cbn [ms_parts]. split; [|exact C]. split; cbn [ms_parts ms_size].
  - eapply deep_same_bodies; [exact C| |exact WD]. intros j q EQ. destruct (Nat.eq_dec j i) as [->|NJ].
    + rewrite EP in EQ. injection EQ as <-. rewrite A. eexists. split; [reflexivity|]. destruct p, last; reflexivity.
    + rewrite (B j NJ). eauto.
  - pose proof (update_nth_sum f (fun p => list_sum (map header_size (p_headers p))) (ms_parts st) i p _ l' EP eq_refl U) as X.
    fold (headers_size l') in X. fold (headers_size (ms_parts st)) in X. cbv beta in X.
    assert (Y : list_sum (map header_size (p_headers (set_headers
              (if last then p_headers p ++ [new_header name value] else new_header name value :: p_headers p) p))) =
              list_sum (map header_size (p_headers p)) + (blen name + blen value + 4)).
    { destruct p as [hs ct body]. unfold set_headers. cbn [p_headers]. destruct last.
      - rewrite map_app, list_sum_app. cbn [map list_sum fold_right].
        unfold header_size at 2. cbn [new_header h_raw h_name h_val hv_len]. lia.
      - cbn [map list_sum fold_right]. fold (list_sum (map header_size hs)).
        unfold header_size at 1. cbn [new_header h_raw h_name h_val hv_len]. lia. }
    rewrite Y in X. lia.
Qed.

Lemma insert_all_sound l : forall st, sound_msg st -> Forall (fun x => fst x < length (ms_parts st)) l ->
  exists st', insert_all l st = Some st' /\ sound_msg st' /\ length (ms_parts st') = length (ms_parts st).
Proof.
  induction l as [|[i [n v]] l IH]; intros st S F; cbn [insert_all].
  - exists st. auto.
  - apply Forall_cons_iff in F as [F1 F2]. cbn [fst] in F1.
    destruct (insert_sound st i n v true S F1) as (st1 & E1 & S1 & L1). rewrite E1.
    destruct (IH st1 S1) as (st2 & E2 & S2 & L2); [rewrite L1; exact F2|].
    exists st2. split; [exact E2|]. split; [exact S2|congruence].
Qed.

Lemma nested_ids_in parts cur inc : well_formed parts -> cur < length parts ->
  exists l, nested_ids parts cur inc = Some l /\ Forall (fun i => i < length parts) l.
Proof.
  intros WF H. destruct (Nat.eq_dec cur 0) as [->|NC].
  - unfold nested_ids. rewrite Nat.eqb_refl. eexists. split; [reflexivity|].
    apply Forall_forall. intros i I. destruct inc; [apply in_seq in I; lia|].
    destruct (Nat.ltb 1 (length parts)); [apply in_seq in I; lia|destruct I].
  - destruct (nested_ids_exact parts cur inc WF H) as (l & E & _ & M); [intro; contradiction|].
    exists l. split; [exact E|]. apply Forall_forall. intros i I. apply M in I as [R _].
    apply (reaches_lt _ WF) in R. lia.
Qed.

Section E.
  Variable L : rustlib.
  Variable rx : text -> text -> option (list (option text)).
  Variable M : mailparser.
  Hypothesis NE : forall c, chr_lower L c <> [].

  Lemma add_sound protected max name value last i st : sound_msg st -> i < length (ms_parts st) ->
    exists st', add_header L M protected max name value last i st = Some st' /\ sound_msg st' /\
      length (ms_parts st') = length (ms_parts st).
  Proof.
    intros S H. unfold add_header. cbv zeta. destruct (filter _ name) as [|x clean]; [exists st; auto|].
    destruct (hn_parse M (x :: clean)) as [hn|]; [|exists st; auto].
    destruct (existsb _ _); [exists st; auto|].
    exact (insert_sound {| ms_parts := ms_parts st; ms_changed := true; ms_size := ms_size st |} i hn _ last S H).
  Qed.

  Lemma delete_sound protected name index anychild c m ks i st : sound_msg st -> i < length (ms_parts st) ->
    exists st', delete_header L rx M protected name index anychild c m ks i st = Some st' /\ sound_msg st' /\
      length (ms_parts st') = length (ms_parts st).
  Proof.
    intros [WD SZ] H. destruct (hn_parse M name) as [hn|] eqn:EN.
    2: { unfold delete_header. rewrite EN. exists st. split; [reflexivity|]. split; [split; assumption|reflexivity]. }
    destruct (existsb (hn_eqb hn) protected) eqn:EP.
    { unfold delete_header. rewrite EN, EP. exists st. split; [reflexivity|]. split; [split; assumption|reflexivity]. }
    assert (WF : well_formed (ms_parts st)) by (inversion WD; assumption).
    assert (NP : forall q, In q protected -> hn_eqb hn q = false).
    { intros q I. destruct (hn_eqb hn q) eqn:E; [|reflexivity].
      assert (existsb (hn_eqb hn) protected = true) by (apply existsb_exists; eauto). congruence. }
    destruct (delete_exact L rx M NE protected name hn index anychild c m ks i st WF H EN NP SZ)
      as (st' & E & LN & B & _ & SZ' & _).
    exists st'. split; [exact E|]. split; [|exact LN]. split; [|exact SZ'].
    eapply deep_same_bodies; [exact LN| |exact WD].
    intros j p EJ. destruct (B j p EJ) as (p' & E' & [_ X] & _). exists p'. split; [exact E'|congruence].
  Qed.

  Lemma enclosed_wf parts body : wf_deep parts ->
    wf_deep [Part [] None (BMulti [1; 2]); Part [] None (BText body); Part [] None (BMessage parts)].
  Proof.
    intro WD.
    assert (CH : forall a b, child [Part [] None (BMulti [1; 2]); Part [] None (BText body); Part [] None (BMessage parts)] a b ->
                  a = 0 /\ (b = 1 \/ b = 2)).
    { intros a b (p & E & I). destruct a as [|[|[|[|a]]]]; try discriminate E; injection E as <-; simpl in I; intuition. }
    constructor; [constructor|].
    - intros a b C. apply CH in C as [-> [->| ->]]; simpl; lia.
    - intros a1 a2 b C1 C2. apply CH in C1 as [-> _]. apply CH in C2 as [-> _]. reflexivity.
    - intros a p E. destruct a as [|[|[|[|a]]]]; try discriminate E; injection E as <-; simpl; repeat constructor; simpl; intuition lia.
    - intros p ps I X. simpl in I. destruct I as [<-|[<-|[<-|[]]]]; try discriminate X. injection X as <-. exact WD.
  Qed.

  Lemma enclose_sound E headers subject body st : sound_msg st ->
    exists st', enclose L M E headers subject body st = Some st' /\ sound_msg st' /\ length (ms_parts st') = 3.
  Proof.
    intros [WD SZ]. unfold enclose. cbv zeta.
    match goal with |- exists st', insert_all ?l ?s = _ /\ _ => destruct (insert_all_sound l s) as (st' & E1 & S1 & L1) end.
    - split; cbn [ms_parts ms_size]; [apply enclosed_wf, WD|]. apply Nat.le_0_l.
    - cbn [ms_parts length]. rewrite !Forall_app. split; [|split; [|split; [|split]]].
      + repeat (apply Forall_cons; [cbn [fst]; lia|]). apply Forall_nil.
      + apply Forall_forall. intros x I. apply in_map_iff in I as (g & <- & _). cbn [fst]. lia.
      + match goal with |- context [if ?b then _ else _] => destruct b end; [apply Forall_nil|apply Forall_cons; [cbn [fst]; lia|apply Forall_nil]].
      + match goal with |- context [if ?b then _ else _] => destruct b end; [apply Forall_nil|apply Forall_cons; [cbn [fst]; lia|apply Forall_nil]].
      + match goal with |- context [if ?b then _ else _] => destruct b end; [apply Forall_nil|apply Forall_cons; [cbn [fst]; lia|apply Forall_nil]].
    - exists st'. split; [exact E1|]. split; [exact S1|exact L1].
  Qed.
End E.
