(** Proofs about the modifiers of 'set' and 'extracttext'. *)
From Coq Require Import Lia.
From Verif Require Import Base Lib Var Value SetVar SetSpec SetProofs ValueProofs DateSpec DateProofs Message Mime EditHeader Event Sieve Run TestSpec ActionSpec ActionProofs ModSpec.
Import ListNotations.
Local Open Scope list_scope.

Lemma len_ch_pos c : 1 <= len_utf8 c. Proof. pose proof (len_utf8_pos c). lia. Qed.
Lemma blen_one c : blen [c] = len_utf8 c. Proof. cbn [blen]. lia. Qed.

(** *** Rewriting character by character *)
Section W.
  Variable max : nat.
  Variable writes : ch -> text -> Prop.

  (** A loop that writes [w c] for [c] while there is room. *)
  Lemma loop_written (go : text -> text -> text) (w : ch -> text) (ok : ch -> Prop) :
    (forall res, go [] res = res) ->
    (forall c s res, ok c -> go (c :: s) res = if Nat.leb (blen res + blen (w c)) max then go s (res ++ w c) else res) ->
    (forall c, ok c -> writes c (w c)) ->
    forall s res, Forall ok s -> blen res <= max ->
      exists p rest out, s = p ++ rest /\ written writes p out /\ go s res = res ++ out /\ blen (res ++ out) <= max /\
        match rest with [] => True | c :: _ => exists x, writes c x /\ max < blen (res ++ out) + blen x end.
  Proof.
    intros G0 G1 W. induction s as [|c s IH]; intros res F B.
    - exists [], [], []. rewrite G0, (app_nil_r res). repeat split; [constructor|exact B].
    - inversion F as [|? ? Fc Fs]; subst. rewrite (G1 _ _ _ Fc). destruct (Nat.leb (blen res + blen (w c)) max) eqn:X.
      + apply Nat.leb_le in X. destruct (IH (res ++ w c) Fs) as (p & rest & out & -> & WR & E & B' & R); [rewrite blen_app; lia|].
        exists (c :: p), rest, (w c ++ out). rewrite app_assoc. repeat split; try assumption. constructor; [apply W, Fc|exact WR].
      + apply Nat.leb_gt in X. exists [], (c :: s), []. rewrite (app_nil_r res). repeat split; [constructor|exact B|].
        exists (w c). split; [apply W, Fc|exact X].
  Qed.
End W.

Lemma quote_written max special sp t :
  (forall c, mem_ch c sp = true <-> In c special) -> (forall c, In c special -> len_utf8 c = 1) ->
  written_within (escaped special) max t (quote_go max sp t []).
Proof.
  intros M A.
  destruct (loop_written max (escaped special) (quote_go max sp) (fun c => if mem_ch c sp then [c_bslash; c] else [c]) (fun _ => True)) with (s := t) (res := @nil ch)
    as (p & rest & out & S & W & G & B & R).
  - reflexivity.
  - intros c s res _. cbn [quote_go]. destruct (mem_ch c sp) eqn:X; [|rewrite blen_one; reflexivity].
    apply M, A in X. cbn [blen]. rewrite X. change (len_utf8 c_bslash) with 1.
    destruct (Nat.ltb_spec (blen res + 1) max), (Nat.leb_spec (blen res + (1 + (1 + 0))) max); try lia; reflexivity.
  - intros c _. destruct (mem_ch c sp) eqn:X; [left|right]; (split; [|reflexivity]); rewrite <- M, X; [reflexivity|discriminate].
  - apply Forall_forall. intros. exact Logic.I.
  - apply Nat.le_0_l.
  - rewrite G. exists p, rest. repeat split; assumption.
Qed.

Lemma mem_ch_in c l : mem_ch c l = true <-> In c l.
Proof.
  unfold mem_ch. rewrite existsb_exists. split.
  - intros (x & I & E). apply N.eqb_eq in E. subst. exact I.
  - intro I. exists c. split; [exact I|apply N.eqb_refl].
Qed.
Lemma wild_special c : mem_ch c wildcard_special = true <-> In c wild.
Proof. rewrite mem_ch_in. unfold wildcard_special, wild. cbn [In]. tauto. Qed.
Lemma regexp_special c : mem_ch c regex_special = true <-> In c regexp.
Proof.
  rewrite mem_ch_in. split; intro H; apply mem_ch_in; vm_compute in H; repeat destruct H as [<-|H]; try reflexivity; contradiction.
Qed.
Lemma wild_short c : In c wild -> len_utf8 c = 1.
Proof. intro H. cbn in H. repeat destruct H as [<-|H]; try reflexivity. contradiction. Qed.
Lemma regexp_short c : In c regexp -> len_utf8 c = 1.
Proof. intro H. vm_compute in H. repeat destruct H as [<-|H]; try reflexivity. contradiction. Qed.

(** *** Percent escapes *)
Lemma hex_digit_val n : (n < 16)%N -> hexval (hex_digit n) = Some n /\ ~ (65 <= hex_digit n <= 70)%N.
Proof.
  intro H. assert (C : exists k, n = N.of_nat k /\ k < 16) by (exists (N.to_nat n); lia).
  destruct C as (k & -> & K). do 16 (destruct k as [|k]; [split; [reflexivity|vm_compute; intros [X Y]; try (apply X; reflexivity); try (apply Y; reflexivity)]|]). lia.
Qed.
Lemma pct_escape b : (b < 256)%N -> byte_escape b (pct b).
Proof.
  intro H. assert (A : (b / 16 < 16)%N) by (apply N.div_lt_upper_bound; lia). assert (B : (b mod 16 < 16)%N) by (apply N.mod_lt; lia).
  destruct (hex_digit_val _ A) as [A1 A2], (hex_digit_val _ B) as [B1 B2].
  exists (hex_digit (b / 16)), (hex_digit (b mod 16)), (b / 16)%N, (b mod 16)%N. repeat split; try assumption. apply N.div_mod. lia.
Qed.
Lemma url_written max t : Forall valid_char t -> written_within url_char max t (encode_go max t []).
Proof.
  intro V.
  destruct (loop_written max url_char (encode_go max) enc1 valid_char) with (s := t) (res := @nil ch) as (p & rest & out & S & W & G & B & R).
  - reflexivity.
  - intros c s res Vc. cbn [encode_go]. pose proof (enc1_blen c Vc) as LB. unfold enc1 in *. destruct (unreserved c) eqn:U.
    + rewrite LB. destruct (Nat.ltb_spec (blen res) max), (Nat.leb_spec (blen res + 1) max); try lia; reflexivity.
    + rewrite LB. rewrite (Nat.mul_comm 3). reflexivity.
  - intros c Vc. unfold enc1. destruct (unreserved c) eqn:U; [left|right].
    + split; [apply unreserved_spec, U|reflexivity].
    + split; [rewrite <- unreserved_spec, U; discriminate|]. exists (map pct (utf8_char c)). split; [|apply flat_map_concat_map].
      pose proof (utf8_bytes c Vc) as F. induction F; constructor; [apply pct_escape; assumption|assumption].
  - exact V.
  - apply Nat.le_0_l.
  - rewrite G. exists p, rest. repeat split; assumption.
Qed.

(** *** The first character *)
Lemma first_rest_spec max s : forall res, exists p rest, s = p ++ rest /\ first_rest max s res = res ++ p /\
  (p <> [] -> blen (res ++ p) <= max) /\ match rest with [] => True | d :: _ => max < blen (res ++ p) + len_utf8 d end.
Proof.
  induction s as [|c s IH]; intro res; cbn [first_rest].
  - exists [], []. rewrite (app_nil_r res). repeat split; congruence.
  - destruct (Nat.leb (blen res + len_utf8 c) max) eqn:X.
    + apply Nat.leb_le in X. destruct (IH (res ++ [c])) as (p & rest & -> & E & B & R). exists (c :: p), rest.
      rewrite <- app_assoc in *. cbn [app] in *. repeat split; try assumption. intros _. destruct p as [|d p].
      * rewrite blen_app, blen_one. exact X.
      * apply B. discriminate.
    + apply Nat.leb_gt in X. exists [], (c :: s). rewrite (app_nil_r res). repeat split; [congruence|exact X].
Qed.
Lemma first_case_spec max f t : first_changed f max t (first_case max f t).
Proof.
  destruct t as [|c s]; cbn [first_case]; [constructor|]. destruct (Nat.leb (len_utf8 c) max) eqn:X.
  - apply Nat.leb_le in X. destruct (first_rest_spec max s (f c)) as (p & rest & -> & -> & B & R). constructor; assumption.
  - apply Nat.leb_gt in X. constructor. exact X.
Qed.

(** *** Replacing *)
Lemma starts_prefix s p : starts_with s p = true <-> is_prefix p s.
Proof.
  revert s. induction p as [|c p IH]; intros s; cbn [starts_with].
  - split; [intros _; exists s; reflexivity|destruct s; reflexivity].
  - destruct s as [|d s]; cbn [starts_with].
    + split; [discriminate|intros [r H]; discriminate].
    + rewrite andb_true_iff, N.eqb_eq, IH. split.
      * intros [-> [r ->]]. exists r. reflexivity.
      * intros [r H]. injection H as -> ->. split; [reflexivity|exists r; reflexivity].
Qed.
Lemma replace_skip find repl s : forall k, treplace_go find repl s k = treplace_go find repl (skipn k s) 0.
Proof. induction s as [|c s IH]; intros [|k]; try reflexivity. cbn [treplace_go skipn]. apply IH. Qed.
Lemma replace_go_spec find repl : find <> [] -> forall n s, length s <= n -> replaced find repl s (treplace_go find repl s 0).
Proof.
  intros NE. induction n as [|n IH]; intros s Ln.
  - destruct s; [constructor|cbn in Ln; lia].
  - destruct s as [|c s]; [constructor|]. cbn [treplace_go]. cbn [length] in Ln.
    destruct (starts_with (c :: s) find) eqn:X.
    + apply starts_prefix in X. destruct X as [r R]. destruct find as [|d f]; [congruence|]. injection R as -> ->.
      rewrite replace_skip. cbn [length]. replace (S (length f) - 1) with (length f) by lia.
      rewrite skipn_app, skipn_all, Nat.sub_diag. cbn [app skipn]. change (d :: f ++ r) with ((d :: f) ++ r). constructor.
      apply IH. rewrite app_length in Ln. lia.
    + constructor; [rewrite <- starts_prefix, X; discriminate|]. apply IH. lia.
Qed.
Lemma intersperse_spec repl s : interspersed repl s (repl ++ flat_map (fun c => c :: repl) s).
Proof.
  induction s as [|c s IH]; cbn [flat_map]; [rewrite (app_nil_r repl); constructor|].
  change ((c :: repl) ++ flat_map (fun c => c :: repl) s) with (c :: (repl ++ flat_map (fun c => c :: repl) s)). constructor. exact IH.
Qed.

(** *** All modifiers *)
Section R.
  Variable E : renv.
  Notation L := (E_L E).

  Lemma mod_spec s m t : modified E s m t (mod_apply L (E_max_var E) (vw E s) m t).
  Proof.
    destruct m as [| | | | | | | |f r]; cbn [mod_apply].
    - constructor.
    - constructor.
    - constructor. apply first_case_spec.
    - constructor. apply first_case_spec.
    - constructor. apply quote_written; [apply wild_special|apply wild_short].
    - constructor. apply quote_written; [apply regexp_special|apply regexp_short].
    - constructor. apply url_written.
    - destruct (show_decimal (N.of_nat (length t))) as (w & D). apply mo_length with w; [exact D|].
      destruct (N.eq_dec (hd 48%N (show_N (N.of_nat (length t)))) 48) as [X|X]; [left|right; exact X].
      destruct D as (ds & Ln & _ & Q & _). rewrite <- Ln. destruct (show_N (N.of_nat (length t))) as [|c l] eqn:S.
      + exfalso. revert S. apply show_go_nonempty. left. discriminate.
      + pose proof (show_head (N.of_nat (length t))) as H. rewrite S in H. specialize (H X). rewrite H in Q.
        apply (f_equal (@length ch)) in Q. rewrite map_length in Q. symmetry. exact Q.
    - unfold treplace. change (v_text L (eval_value L (vw E s) f)) with (tx E s f). change (v_text L (eval_value L (vw E s) r)) with (tx E s r).
      destruct (tx E s f) as [|c f'] eqn:X.
      + apply mo_intersperse; [exact X|]. apply intersperse_spec.
      + apply mo_replace; rewrite X; [discriminate|]. eapply replace_go_spec; [discriminate|apply Nat.le_refl].
  Qed.
  Lemma mods_text s mods : forall v, mods <> [] ->
    exists out, apply_mods L (E_max_var E) (vw E s) mods v = VStr out /\ modified_by E s mods (v_text L v) out.
  Proof.
    induction mods as [|m mods IH]; intros v H; [congruence|]. cbn [apply_mods]. destruct mods as [|m' mods].
    - cbn [apply_mods]. eexists. split; [reflexivity|]. econstructor; [apply mod_spec|constructor].
    - destruct (IH (VStr (mod_apply L (E_max_var E) (vw E s) m (v_text L v))) ltac:(discriminate)) as (out & A & M).
      exists out. split; [exact A|]. econstructor; [apply mod_spec|exact M].
  Qed.
  Lemma mods_fold s mods : forall t, modified_by E s mods t (fold_left (fun v m => mod_apply L (E_max_var E) (vw E s) m v) mods t).
  Proof. induction mods as [|m mods IH]; intro t; cbn [fold_left]; [constructor|]. econstructor; [apply mod_spec|apply IH]. Qed.

  (** *** Storing *)
  Lemma store_text max s c n t p : c = vw E s \/ c = r_vars s -> assignable (r_vars s) n -> r_queue s = [] ->
    variable (fst (set_variable L max c n (VStr t))) n = Some (VStr p) ->
    exists s', stored E s n (VStr p) s' /\
      match envelope_event n p with
      | [] => take_queue (assign (set_variable L max c n (VStr t)) (moved_on s)) = SCont s'
      | e :: q => take_queue (assign (set_variable L max c n (VStr t)) (moved_on s)) = SYield (w_queue q s') (OEvent e)
      end.
  Proof.
    intros C A Q V. exists (w_vars (fst (set_variable L max c n (VStr t))) (moved_on s)). split.
    - split; [|split; [|eexists; reflexivity]].
      + rewrite <- V. destruct n; cbn [assignable] in A; try contradiction; reflexivity.
      + intros n' NN. destruct n' as [| | | | |k] eqn:X;
          try (transitivity (variable c n'); [|destruct C as [->| ->]; rewrite X; reflexivity];
               rewrite <- (set_variable_frame L max c n (VStr t) n') by congruence; rewrite X; reflexivity).
        reflexivity.
    - unfold set_variable in *.
      destruct n; cbn [assignable] in A; try contradiction; cbn [envelope_event fst snd assign w_vars take_queue] in *.
      + unfold assign. cbn [snd fst]. unfold take_queue. change (r_queue (w_vars ?c (moved_on s))) with (r_queue s). rewrite Q. reflexivity.
      + unfold assign. cbn [snd fst]. unfold take_queue. change (r_queue (w_vars ?c (moved_on s))) with (r_queue s). rewrite Q. reflexivity.
      + cbn [variable set_envelope c_envelope] in V. rewrite envlookup_same in V. injection V as V.
        unfold assign. cbn [snd fst take_queue r_queue w_queue]. rewrite V. reflexivity.
  Qed.

  Theorem set_step s mods n x : at_instr E s (IxSet mods n x) -> mods <> [] -> assignable (r_vars s) n -> r_queue s = [] ->
    exists out p s', modified_by E s mods (tx E s x) out /\ longest_prefix (E_max_var E) out p /\
      stored E s n (VStr p) s' /\ hands_out E s (envelope_event n p) s'.
  Proof.
    intros AT NE A Q. destruct (mods_text s mods (ev E s x) NE) as (out & AM & MB).
    destruct (set_variable_stored L (E_max_var E) (vw E s) n out) as (p & V & LP); [destruct n; exact A|].
    destruct (store_text (E_max_var E) s (vw E s) n out p (or_introl eq_refl) A Q V) as (s' & ST & TQ).
    exists out, p, s'. split; [exact MB|]. split; [exact LP|]. split; [exact ST|].
    unfold hands_out. rewrite (step_instr E s _ AT). cbn [exec_instr].
    change (vw E (moved_on s)) with (vw E s). unfold exec_set. change (eval_value L (vw E s) x) with (ev E s x). rewrite AM. exact TQ.
  Qed.

  Lemma extracted s mods first : exists t,
    part_text E s first t /\
    let out := extract_text L (mime_env E (moved_on s)) (match r_iters s with [] => false | _ => true end) first (E_max_var E) (vw E s) mods (r_part s) (r_msg s) in
    (t = [] -> out = []) /\ (t <> [] -> modified_by E s mods t out).
  Proof.
    unfold extract_text. destruct (r_iters s) as [|i is] eqn:IT.
    - exists []. split; [apply pt_outside, IT|]. split; [reflexivity|congruence].
    - assert (NE : r_iters s <> []) by (rewrite IT; discriminate).
      cbv zeta. match goal with |- context [fold_left _ mods ?v] => set (w := v) end. exists w.
      split.
      + unfold w. change (ms_parts (r_msg s)) with (parts s). destruct (nth_error (parts s) (r_part s)) as [p|] eqn:N; [|apply pt_missing; assumption].
        destruct (p_body p) eqn:B; try (apply pt_other with p; [assumption|assumption|intros ? X; rewrite B in X; discriminate|intros ? X; rewrite B in X; discriminate]).
        * apply pt_text with p; assumption.
        * apply (pt_html E s first p); assumption.
      + destruct w as [|c t].
        * split; [reflexivity|congruence].
        * split; [discriminate|]. intros _. apply mods_fold.
  Qed.
  Theorem extract_step s mods first n : at_instr E s (IxExtract mods first n) -> assignable (r_vars s) n -> r_queue s = [] ->
    exists t out s', part_text E s first t /\ (t = [] -> out = []) /\ (t <> [] -> modified_by E s mods t out) /\
      stored E s n (VStr out) s' /\ hands_out E s (envelope_event n out) s'.
  Proof.
    intros AT A Q. destruct (extracted s mods first) as (t & PT & X). cbn zeta in X.
    set (out := extract_text _ _ _ _ _ _ _ _ _) in X. destruct X as [X1 X2].
    assert (V : variable (fst (set_variable L (v_len (VStr out)) (r_vars s) n (VStr out))) n = Some (VStr out)).
    { destruct (set_variable_stored L (v_len (VStr out)) (r_vars s) n out) as (p & V & (r & P) & B & LP); [destruct n; exact A|].
      rewrite V. do 2 f_equal. assert (LL : length out <= length p) by (apply LP; [exists []; symmetry; apply app_nil_r|apply Nat.le_refl]).
      rewrite P in LL |- *. rewrite app_length in LL. destruct r; [symmetry; apply app_nil_r|cbn in LL; lia]. }
    destruct (store_text _ s (r_vars s) n out out (or_intror eq_refl) A Q V) as (s' & ST & TQ).
    exists t, out, s'. split; [exact PT|]. split; [exact X1|]. split; [exact X2|]. split; [exact ST|].
    unfold hands_out. rewrite (step_instr E s _ AT). cbn [exec_instr]. cbn zeta.
    change (vw E (moved_on s)) with (vw E s). change (r_iters (moved_on s)) with (r_iters s).
    change (r_part (moved_on s)) with (r_part s). change (r_msg (moved_on s)) with (r_msg s). fold out.
    change (r_vars (moved_on s)) with (r_vars s).
    exact TQ.
  Qed.
End R.
