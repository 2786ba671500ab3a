(** Proofs about storing plain values and flags. *)
From Coq Require Import Lia.
From Verif Require Import Base Lib Var Value SetVar SetSpec SetProofs Flags FlagsSpec FlagsProofs Message Event Sieve Run TestSpec ActionSpec ActionProofs ModSpec ModProofs.
Import ListNotations.
Local Open Scope list_scope.

Lemma words_go_spec s : forall cur, Forall (fun c => is_ws_ascii c = false) cur ->
  match cur with [] => words_are s (words_go s []) | _ => exists w rest ws, s = w ++ rest /\ Forall (fun c => is_ws_ascii c = false) w /\
    match rest with [] => True | c :: _ => is_ws_ascii c = true end /\ words_are rest ws /\ words_go s cur = (cur ++ w) :: ws end.
Proof.
  assert (G : forall n s, length s <= n -> forall cur, Forall (fun c => is_ws_ascii c = false) cur ->
    match cur with [] => words_are s (words_go s []) | _ => exists w rest ws, s = w ++ rest /\ Forall (fun c => is_ws_ascii c = false) w /\
      match rest with [] => True | c :: _ => is_ws_ascii c = true end /\ words_are rest ws /\ words_go s cur = (cur ++ w) :: ws end).
  { induction n as [|n IH]; intros [|c t] Ln cur F; cbn [length] in Ln; try lia.
    - destruct cur as [|d cur]; [apply wo_end; constructor|]. exists [], [], []. cbn [words_go app]. rewrite app_nil_r. repeat split; constructor. constructor.
    - destruct cur as [|d cur]; [apply wo_end; constructor|]. exists [], [], []. cbn [words_go app]. rewrite app_nil_r. repeat split; constructor. constructor.
    - destruct (is_ws_ascii c) eqn:X.
      + pose proof (IH t ltac:(lia) [] (Forall_nil _)) as W. cbn iota in W.
        assert (WC : words_are (c :: t) (words_go t [])).
        { inversion W as [b B Q|b w rest ws B NE FW R WR Q]; subst.
          - apply wo_end. constructor; assumption.
          - change (c :: b ++ w ++ rest) with ((c :: b) ++ w ++ rest). apply wo_word; try assumption. constructor; assumption. }
        destruct cur as [|d cur]; cbn [words_go]; rewrite X.
        * cbn [app]. exact WC.
        * exists [], (c :: t), (words_go t []). rewrite app_nil_r. cbn [app]. repeat split; [constructor|exact X|exact WC].
      + assert (FC : Forall (fun c => is_ws_ascii c = false) [c]) by (repeat constructor; exact X).
        destruct cur as [|d cur]; cbn [words_go]; rewrite X.
        * destruct (IH t ltac:(lia) [c] FC) as (w & rest & ws & -> & FW & R & WR & Q). cbn [app]. rewrite Q.
          change (c :: w ++ rest) with ([] ++ (c :: w) ++ rest). change ([c] ++ w) with (c :: w).
          apply wo_word; try assumption; [constructor|discriminate|constructor; assumption].
        * destruct (IH t ltac:(lia) ((d :: cur) ++ [c])) as (w & rest & ws & -> & FW & R & WR & Q); [apply Forall_app; split; assumption|].
          exists (c :: w), rest, ws. cbn [app] in Q. rewrite <- app_assoc in Q. repeat split; try assumption. constructor; assumption. }
  intros cur F. exact (G (length s) s (Nat.le_refl _) cur F).
Qed.
Lemma words_spec s : words_are s (words s).
Proof. exact (words_go_spec s [] (Forall_nil _)). Qed.

Lemma trim_start_spec ws s : exists a, s = a ++ trim_start ws s /\ Forall (fun c => ws c = true) a /\
  (forall c v, trim_start ws s = c :: v -> ws c = false).
Proof.
  induction s as [|c s IH]; cbn [trim_start].
  - exists []. repeat split; [constructor|discriminate].
  - destruct (ws c) eqn:X.
    + destruct IH as (a & Q & F & N). exists (c :: a). cbn [app]. rewrite <- Q. repeat split; [constructor; assumption|exact N].
    + exists []. repeat split; [constructor|]. intros d v H. injection H as <- _. exact X.
Qed.
Lemma trim_spec L s : trimmed L s (trim (chr_is_ws L) s).
Proof.
  unfold trim. set (ws := chr_is_ws L). destruct (trim_start_spec ws s) as (a & Qa & Fa & Na). set (m := trim_start ws s) in *.
  destruct (trim_start_spec ws (rev m)) as (b & Qb & Fb & Nb). set (u := trim_start ws (rev m)) in *.
  assert (M : m = rev u ++ rev b) by (rewrite <- rev_app_distr, <- Qb, rev_involutive; reflexivity).
  exists a, (rev b). repeat split.
  - rewrite Qa at 1. rewrite M. reflexivity.
  - exact Fa.
  - apply Forall_rev, Fb.
  - intros c v H. apply (Na c (v ++ rev b)). rewrite M, H. reflexivity.
  - intros c v H. apply (Nb c (rev v)). rewrite <- (rev_involutive u), H, rev_app_distr. reflexivity.
Qed.

Section R.
  Variable E : renv.
  Notation L := (E_L E).

  Lemma listed_spec s l : flags_listed E s l
    (flat_map (fun t => match t with [] => [] | _ => [trim (chr_is_ws L) t] end) (map (fun x => v_text L (eval_value L (vw E s) x)) l)).
  Proof.
    induction l as [|x l IH]; cbn [map flat_map]; [constructor|]. change (v_text L (eval_value L (vw E s) x)) with (tx E s x).
    destruct (tx E s x) as [|c t] eqn:X; cbn [app].
    - apply fl_skip; assumption.
    - apply fl_flag; [rewrite X; discriminate|rewrite X; apply trim_spec|exact IH].
  Qed.
  Lemma given_spec s l : flags_given E s l (flag_tokens L (vw E s) l).
  Proof.
    unfold flag_tokens, tokenize_flags. destruct l as [|x [|y l]].
    - apply fg_list; [discriminate|]. apply (listed_spec s []).
    - apply fg_words. apply words_spec.
    - apply fg_list; [discriminate|]. apply (listed_spec s (x :: y :: l)).
  Qed.

  Lemma store_plain max s c n v v' : c = vw E s \/ c = r_vars s -> (forall e, n <> TEnvelope e) -> assignable (r_vars s) n ->
    variable (fst (set_variable L max c n v)) n = Some v' ->
    exists s', stored E s n v' s' /\ assign (set_variable L max c n v) (moved_on s) = s'.
  Proof.
    intros C NE A V. exists (w_vars (fst (set_variable L max c n v)) (moved_on s)). split.
    - split; [|split; [|eexists; reflexivity]].
      + rewrite <- V. destruct n; cbn [assignable] in A; try contradiction; reflexivity.
      + intros n' NN. destruct n' as [| | | | |k] eqn:X;
          try (transitivity (variable c n'); [|destruct C as [->| ->]; rewrite X; reflexivity];
               rewrite <- (set_variable_frame L max c n v n') by congruence; rewrite X; reflexivity).
        reflexivity.
    - destruct n; cbn [assignable] in A; try contradiction; try reflexivity. elim (NE e). reflexivity.
  Qed.

  Theorem plain_step s n x : at_instr E s (IxSet [] n x) -> (forall e, n <> TEnvelope e) -> assignable (r_vars s) n -> r_queue s = [] ->
    exists v s', ((v_len (ev E s x) <= E_max_var E /\ v = ev E s x) \/
                  (E_max_var E < v_len (ev E s x) /\ exists p, v = VStr p /\ longest_prefix (E_max_var E) (tx E s x) p)) /\
      stored E s n v s' /\ step E s = SCont s'.
  Proof.
    intros AT NE A Q. assert (A' : assignable (vw E s) n) by (destruct n; exact A).
    destruct (stored_other L (E_max_var E) (vw E s) n (ev E s x) A' NE) as [S1 S2].
    assert (V : exists v, variable (fst (set_variable L (E_max_var E) (vw E s) n (ev E s x))) n = Some v /\
      ((v_len (ev E s x) <= E_max_var E /\ v = ev E s x) \/
       (E_max_var E < v_len (ev E s x) /\ exists p, v = VStr p /\ longest_prefix (E_max_var E) (tx E s x) p))).
    { destruct (Nat.le_gt_cases (v_len (ev E s x)) (E_max_var E)) as [X|X].
      - exists (ev E s x). split; [apply S1, X|left; split; [exact X|reflexivity]].
      - destruct (S2 X) as (p & V & LP). exists (VStr p). split; [exact V|right]. split; [exact X|exists p; split; [reflexivity|exact LP]]. }
    destruct V as (v & V & C). destruct (store_plain _ s (vw E s) n _ v (or_introl eq_refl) NE A V) as (s' & ST & AS).
    exists v, s'. split; [exact C|]. split; [exact ST|].
    rewrite (step_instr E s _ AT). cbn [exec_instr]. change (vw E (moved_on s)) with (vw E s). unfold exec_set. cbn [apply_mods].
    change (eval_value L (vw E s) x) with (ev E s x). rewrite AS. unfold take_queue.
    destruct ST as (_ & _ & (c & ->)). change (r_queue (w_vars c (moved_on s))) with (r_queue s). rewrite Q. reflexivity.
  Qed.

  Theorem flags_step s a name strings old toks :
    let n := match name with Some n => n | None => default_flags end in
    (forall f, str_lower L f = str_lower L [] -> f = []) ->
    at_instr E s (IxEditFlags a name strings) -> (forall e, n <> TEnvelope e) -> assignable (r_vars s) n ->
    holds (vw E s) n old -> no_dup_ci L old -> toks = flag_tokens L (vw E s) strings ->
    Forall proper_flag toks -> flags_size old + flags_size toks <= E_max_var E ->
    exists v new s', stored E s n v s' /\ step E s = SCont s' /\ holds (vw E s') n new /\ new_flags_ok L a old toks new.
  Proof.
    intros n EL AT NE A H ND -> PF SZ. assert (A' : assignable (vw E s) n) by (destruct n; exact A).
    destruct (flag_action_sets L (E_max_var E) (vw E s) a n strings old EL A' H ND PF SZ) as (new & H' & _ & ND' & IFF).
    assert (X : exec_flags L (E_max_var E) (vw E s) a (Some n) strings = exec_flags L (E_max_var E) (vw E s) a name strings)
      by (unfold n; destruct name; reflexivity).
    rewrite X in H'. unfold exec_flags in H'. fold n in H'.
    set (t := VStr (edit_flags L a (var_text L (get_variable (vw E s) n)) (flag_tokens L (vw E s) strings))) in *.
    assert (V : exists v, variable (fst (set_variable L (E_max_var E) (vw E s) n t)) n = Some v).
    { destruct (set_variable_stored L (E_max_var E) (vw E s) n (edit_flags L a (var_text L (get_variable (vw E s) n)) (flag_tokens L (vw E s) strings)) A') as (p & V & _).
      exists (VStr p). exact V. }
    destruct V as (v & V). destruct (store_plain _ s (vw E s) n t v (or_introl eq_refl) NE A V) as (s' & ST & AS).
    exists v, new, s'. split; [exact ST|]. split; [|split; [|split; [exact ND'|exact IFF]]].
    - rewrite (step_instr E s _ AT). cbn [exec_instr]. change (vw E (moved_on s)) with (vw E s). unfold exec_flags. fold n. fold t. rewrite AS. reflexivity.
    - unfold holds in *. destruct ST as (V' & _). rewrite V'. rewrite V in H'. exact H'.
  Qed.
End R.
