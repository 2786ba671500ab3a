From Coq Require Import Lia Permutation Sorted.
From Verif Require Import Base Lib Var Value SetVar Flags Comparator Message MessageSpec MessageProofs MessageProofs2 EditHeader AddrTest AddrSpec AddrTestProofs
  Spam Notify Event Sieve Run SetProofs MatchSpec TestSpec TestProofs CountSpec.
Import ListNotations.
Local Open Scope list_scope.

(** *** how_many *)
Lemma hm_unique {X} (P : X -> Prop) a b : how_many P a -> how_many P b -> a = b.
Proof.
  intros (l & N & I & <-) (l' & N' & I' & <-). apply Permutation_length, NoDup_Permutation; auto.
  intro x. rewrite I, I'. reflexivity.
Qed.
Lemma hm_ext {X} (P Q : X -> Prop) n : (forall x, P x <-> Q x) -> how_many P n -> how_many Q n.
Proof. intros E (l & N & I & L). exists l. split; [exact N|]. split; [intro x; rewrite I; apply E|exact L]. Qed.
Lemma hm_unit (P : Prop) (b : bool) : (b = true <-> P) -> how_many (fun path : list nat => path = [] /\ P) (if b then 1 else 0).
Proof.
  intro B. destruct b.
  - exists [[]]. split; [repeat constructor; intros []|]. split; [|reflexivity]. intro x. split; [intros [<-|[]]; split; [reflexivity|apply B; reflexivity]|intros [-> _]; left; reflexivity].
  - exists []. split; [constructor|]. split; [|reflexivity]. intro x. split; [intros []|intros [_ H]; apply B in H; discriminate].
Qed.
Lemma NoDup_map_cons (i : nat) (l : list (list nat)) : NoDup l -> NoDup (map (cons i) l).
Proof.
  induction 1 as [|x l N _ IH]; [constructor|]. cbn [map]. constructor; [|exact IH]. intro I. apply in_map_iff in I as (y & E & I). injection E as ->. contradiction.
Qed.
Lemma hm_sum {X} (f : X -> nat) (Q : nat -> X -> list nat -> Prop) : forall xs : list (nat * X), NoDup (map fst xs) ->
  (forall i x, In (i, x) xs -> how_many (Q i x) (f x)) ->
  how_many (fun path => exists i x rest, path = i :: rest /\ In (i, x) xs /\ Q i x rest) (list_sum (map (fun ix => f (snd ix)) xs)).
Proof.
  induction xs as [|[i x] xs IH]; intros N H.
  - exists []. split; [constructor|]. split; [|reflexivity]. intro p. split; [intros []|intros (? & ? & ? & _ & [] & _)].
  - inversion N as [|? ? NI N']; subst. destruct (IH N') as (l & A & B & C); [intros; apply H; right; assumption|].
    destruct (H i x (or_introl eq_refl)) as (l0 & A0 & B0 & C0). exists (map (cons i) l0 ++ l). split; [|split].
    + apply NoDup_app_disjoint; [apply NoDup_map_cons, A0|exact A|]. intros p I J. apply in_map_iff in I as (r & <- & I).
      apply B in J as (i' & x' & r' & E & J & _). injection E as <- <-. apply NI. apply in_map_iff. exists (i, x'). auto.
    + intro p. rewrite in_app_iff, in_map_iff, B. split.
      * intros [(r & <- & I)|(i' & x' & r' & E & J & K)].
        -- exists i, x, r. split; [reflexivity|]. split; [left; reflexivity|apply B0, I].
        -- exists i', x', r'. split; [exact E|]. split; [right; exact J|exact K].
      * intros (i' & x' & r' & -> & [J|J] & K).
        -- injection J as <- <-. left. exists r'. split; [reflexivity|apply B0, K].
        -- right. eauto 6.
    + rewrite app_length, map_length, C, C0. reflexivity.
Qed.
Lemma number_in {X} : forall (l : list X) a i x, In (i, x) (number_from a l) <-> exists k, i = a + k /\ nth_error l k = Some x.
Proof.
  induction l as [|y l IH]; intros a i x; cbn [number_from].
  - split; [intros []|intros ([|k] & _ & H); discriminate].
  - split.
    + intros [E|I]; [injection E as <- <-; exists 0; split; [lia|reflexivity]|]. apply IH in I as (k & -> & H). exists (S k). split; [lia|exact H].
    + intros ([|k] & -> & H); [left; injection H as ->; f_equal; lia|]. right. apply IH. exists k. split; [lia|exact H].
Qed.
Lemma hm_list {X} (f : X -> nat) (Q : nat -> X -> list nat -> Prop) (xs : list X) :
  (forall i x, nth_error xs i = Some x -> how_many (Q i x) (f x)) ->
  how_many (fun path => exists i x rest, path = i :: rest /\ nth_error xs i = Some x /\ Q i x rest) (list_sum (map f xs)).
Proof.
  intro H. assert (E : map f xs = map (fun ix => f (snd ix)) (number_from 0 xs)).
  { rewrite <- (map_map snd f), map_snd_number. reflexivity. }
  rewrite E. eapply hm_ext; [|apply (hm_sum f Q (number_from 0 xs))].
  - intro p. split; intros (i & x & r & A & B & C); exists i, x, r; (split; [exact A|split; [|exact C]]).
    + apply number_in in B as (k & -> & B). exact B.
    + apply number_in. exists i. auto.
  - rewrite map_fst_number. apply seq_NoDup.
  - intros i x I. apply H. apply number_in in I as (k & -> & I). exact I.
Qed.
Lemma sum_filter {X} (b : X -> bool) : forall l, list_sum (map (fun x => if b x then 1 else 0) l) = length (filter b l).
Proof. induction l as [|x l IH]; [reflexivity|]. cbn [map filter]. destruct (b x); cbn [length list_sum fold_right]; unfold list_sum in *; cbn; lia. Qed.
Lemma hm_filter {X} (b : X -> bool) (P : X -> Prop) (xs : list X) : (forall x, In x xs -> (b x = true <-> P x)) ->
  how_many (fun path => exists k x, path = [k] /\ nth_error xs k = Some x /\ P x) (length (filter b xs)).
Proof.
  intro H. rewrite <- sum_filter. eapply hm_ext; [|apply (hm_list (fun x => if b x then 1 else 0) (fun _ x r => r = [] /\ P x))].
  - intro p. split.
    + intros (i & x & r & -> & A & -> & B). eauto.
    + intros (i & x & -> & A & B). exists i, x, []. auto.
  - intros i x A. apply hm_unit, H. eapply nth_error_In, A.
Qed.
Lemma sum_flat {X Y} (f : Y -> nat) (g : X -> list Y) : forall l, list_sum (map f (flat_map g l)) = list_sum (map (fun x => list_sum (map f (g x))) l).
Proof. induction l as [|x l IH]; [reflexivity|]. cbn [flat_map map]. rewrite map_app, list_sum_app, IH. reflexivity. Qed.
Lemma length_flat {X Y} (g : X -> list Y) : forall l, length (flat_map g l) = list_sum (map (fun x => length (g x)) l).
Proof. induction l as [|x l IH]; [reflexivity|]. cbn [flat_map map]. rewrite app_length, IH. reflexivity. Qed.
Lemma filter_flat {X Y} (b : Y -> bool) (g : X -> list Y) : forall l, filter b (flat_map g l) = flat_map (fun x => filter b (g x)) l.
Proof. induction l as [|x l IH]; [reflexivity|]. cbn [flat_map]. rewrite filter_app, IH. reflexivity. Qed.

Lemma filter_map_length {X Y} (f : X -> Y) (b : Y -> bool) : forall l, length (filter b (map f l)) = length (filter (fun x => b (f x)) l).
Proof. induction l as [|x l IH]; [reflexivity|]. cbn [map filter]. destruct (b (f x)); cbn [length]; rewrite IH; reflexivity. Qed.
Lemma existsb_map {X Y} (f : X -> Y) (b : Y -> bool) : forall l, existsb b (map f l) = existsb (fun x => b (f x)) l.
Proof. induction l as [|x l IH]; [reflexivity|]. cbn [map existsb]. rewrite IH. reflexivity. Qed.

(** *** the tests *)
Section C.
  Context (E : renv).
  Notation tx := (Run.tx E).
  Lemma select_nodup index name hs : NoDup (map fst (select_headers index name hs)).
  Proof.
    pose proof (proj1 (select_order index name hs)) as S. induction S as [|a l S IH F]; constructor; auto.
    intro I. rewrite Forall_forall in F. specialize (F a I). lia.
  Qed.
  (** Counting in the fields that are found. *)
  Lemma fields_count s names index anychild (g : header -> nat) (Q : header -> list nat -> Prop) :
    well_formed (parts s) -> r_part s < length (parts s) -> (forall h, how_many (Q h) (g h)) ->
    exists found, find_headers (parts s) (r_part s) (parse_header_names (E_L E) (E_M E) (vw E s) names) index anychild = Some found /\
      how_many (fun path => exists i j pos rest h, path = i :: j :: pos :: rest /\ field_item E s names index anychild i j pos h /\ Q h rest)
        (list_sum (map (fun l => g (l_header l)) found)).
  Proof.
    intros WF RP H. destruct (subparts_looked (parts s) (r_part s) anychild WF RP) as (l & SP & ND & LA & _).
    unfold find_headers. rewrite SP. cbn [option_map]. eexists. split; [reflexivity|]. rewrite sum_flat.
    set (inner := fun (p : part) (x : value) => match hn_parse (E_M E) (tx s x) with
       | Some n => list_sum (map (fun ph => g (snd ph)) (select_headers index n (p_headers p))) | None => 0 end).
    assert (EQ : map (fun x => list_sum (map (fun l0 => g (l_header l0)) (flat_map (fun name => map (fun ph => {| l_part := fst x; l_pos := fst ph; l_header := snd ph |})
        (select_headers index name (p_headers (snd x)))) (parse_header_names (E_L E) (E_M E) (vw E s) names)))) l =
      map (fun ix => list_sum (map (inner (snd ix)) names)) l).
    { apply map_ext. intros [i p]. cbn [fst snd]. rewrite sum_flat. unfold parse_header_names. rewrite sum_flat. f_equal. apply map_ext. intro x.
      unfold inner. change (v_text (E_L E) (eval_value (E_L E) (vw E s) x)) with (tx s x). destruct (hn_parse (E_M E) (tx s x)) as [n|]; [|reflexivity].
      cbn [map list_sum fold_right]. rewrite map_map. unfold list_sum. cbn [fold_right l_header]. lia. }
    rewrite EQ. eapply hm_ext; [|apply (hm_sum (fun p => list_sum (map (inner p) names)) (fun i p path => exists j x rest, path = j :: rest /\ nth_error names j = Some x /\
      exists n pos h r, rest = pos :: r /\ hn_parse (E_M E) (tx s x) = Some n /\ selected index n (p_headers p) pos h /\ Q h r) l ND)].
    - intro path. split.
      + intros (i & p & rest & -> & I & j & x & rest' & -> & NJ & n & pos & h & r & -> & HP & SE & QH). exists i, j, pos, r, h. split; [reflexivity|].
        split; [|exact QH]. exists p, x, n. split; [apply LA, I|]. auto.
      + intros (i & j & pos & rest & h & -> & (p & x & n & LK & NJ & HP & SE) & QH). exists i, p, (j :: pos :: rest). split; [reflexivity|]. split; [apply LA, LK|].
        exists j, x, (pos :: rest). split; [reflexivity|]. split; [exact NJ|]. exists n, pos, h, rest. auto.
    - intros i p I. apply (hm_list (inner p) (fun j x rest => exists n pos h r, rest = pos :: r /\ hn_parse (E_M E) (tx s x) = Some n /\ selected index n (p_headers p) pos h /\ Q h r)).
      intros j x NJ. unfold inner. destruct (hn_parse (E_M E) (tx s x)) as [n|] eqn:HP.
      + eapply hm_ext; [|apply (hm_sum g (fun _ => Q) (select_headers index n (p_headers p)) (select_nodup _ _ _))].
        * intro path. split.
          -- intros (pos & h & r & -> & SE & QH). exists n, pos, h, r. split; [reflexivity|]. split; [reflexivity|]. split; [apply select_spec, SE|exact QH].
          -- intros (n' & pos & h & r & -> & HP' & SE & QH). injection HP' as <-. exists pos, h, r. split; [reflexivity|]. split; [apply select_spec, SE|exact QH].
        * intros pos h _. apply H.
      + exists []. split; [constructor|]. split; [|reflexivity]. intro path. split; [intros []|intros (n & pos & h & r & _ & X & _); discriminate].
  Qed.

  Definition ne (v : text) : bool := match v with [] => false | _ => true end.
  Lemma header_item_count o h : how_many (fun rest => exists k, rest = [k] /\ header_item o h k) (header_count1 o h).
  Proof.
    assert (ONE : forall (P : Prop) b, (b = true <-> P) -> how_many (fun rest => exists k, rest = [k] /\ P /\ k = 0) (if b then 1 else 0)).
    { intros P b B. destruct b.
      - exists [[0]]. split; [repeat constructor; intros []|]. split; [|reflexivity]. intro r. split.
        + intros [<-|[]]. exists 0. split; [reflexivity|]. split; [apply B; reflexivity|reflexivity].
        + intros (k & -> & _ & ->). left. reflexivity.
      - exists []. split; [constructor|]. split; [|reflexivity]. intro r. split; [intros []|]. intros (k & _ & HP & _). apply B in HP. discriminate. }
    assert (CT : (match h_val h with HContentType _ => true | _ => false end) = true <-> exists ct, h_val h = HContentType ct).
    { destruct (h_val h); split; try discriminate; try (intros (? & X); discriminate); eauto. }
    assert (CN : match h_val h with HContentType _ => 1 | _ => 0 end = if (match h_val h with HContentType _ => true | _ => false end) then 1 else 0)
      by (destruct (h_val h); reflexivity).
    unfold header_item, header_count1. destruct o as [| | | |ps].
    - eapply hm_ext; [|apply (ONE True true); tauto]. intro r. split; [intros (k & A & _ & B)|intros (k & A & B)]; exists k; auto.
    - rewrite CN. apply ONE, CT.
    - rewrite CN. apply ONE, CT.
    - rewrite CN. apply ONE, CT.
    - assert (Z : (forall ct attrs, h_val h = HContentType ct -> ct_attrs ct = Some attrs -> False) ->
        how_many (fun rest => exists k, rest = [k] /\ exists ct attrs a q, h_val h = HContentType ct /\ ct_attrs ct = Some attrs /\ nth_error attrs k = Some a /\ In q ps /\ lower_text (fst a) = lower_text q) 0).
      { intro X. exists []. split; [constructor|]. split; [|reflexivity]. intro r. split; [intros []|]. intros (k & _ & ct & attrs & a & q & A & B & _). exact (X _ _ A B). }
      destruct (h_val h) as [t|ct|] eqn:HV; try (apply Z; discriminate). destruct (ct_attrs ct) as [attrs|] eqn:AT.
      2:{ apply Z. intros ct' attrs X Y. injection X as <-. congruence. }
      eapply hm_ext; [|apply (hm_filter _ (fun a => exists q, In q ps /\ lower_text (fst a) = lower_text q))].
      + intro r. split.
        * intros (k & a & -> & N & q & I & Q). exists k. split; [reflexivity|]. exists ct, attrs, a, q. auto.
        * intros (k & -> & ct' & attrs' & a & q & X & Y & N & I & Q). injection X as <-. rewrite AT in Y. injection Y as <-. exists k, a. split; [reflexivity|]. split; [exact N|]. eauto.
      + intros a _. rewrite existsb_exists. split; intros (q & I & Q); exists q; (split; [exact I|]).
        * apply teqb_ic_spec in Q. symmetry. exact Q.
        * apply teqb_ic_spec. symmetry. exact Q.
  Qed.
  Lemma address_item_count p h :
    how_many (fun rest => exists k l a v, rest = [k] /\ ap_parse (E_A E) h = Some l /\ nth_error l k = Some a /\ part_is (E_A E) p a v /\ v <> [])
      (length (filter ne (address_values (E_A E) p h))).
  Proof.
    unfold address_values. destruct (ap_parse (E_A E) h) as [l|].
    - rewrite filter_flat, length_flat.
      set (b := fun a => match part_eval (E_A E) p a with Some v => ne v | None => false end).
      assert (EQ : map (fun x => length (filter ne match part_eval (E_A E) p x with Some t => [t] | None => [] end)) l = map (fun x => if b x then 1 else 0) l).
      { apply map_ext. intro a. unfold b. destruct (part_eval (E_A E) p a) as [v|]; [|reflexivity]. cbn [filter]. destruct (ne v); reflexivity. }
      rewrite EQ, sum_filter. eapply hm_ext; [|apply (hm_filter b (fun a => exists v, part_is (E_A E) p a v /\ v <> []))].
      + intro r. split.
        * intros (k & a & -> & N & v & PI & NE). exists k, l, a, v. auto.
        * intros (k & l' & a & v & -> & X & N & PI & NE). injection X as <-. exists k, a. eauto.
      + intros a _. unfold b. split.
        * destruct (part_eval (E_A E) p a) as [v|] eqn:PE; [|discriminate]. intro X. exists v. split; [apply part_eval_spec, PE|]. destruct v; [discriminate|congruence].
        * intros (v & PI & NE). apply part_eval_spec in PI. rewrite PI. destruct v; [contradiction|reflexivity].
    - exists []. split; [constructor|]. split; [|reflexivity]. intro r. split; [intros []|intros (? & ? & ? & ? & _ & X & _); discriminate].
  Qed.
  Lemma envelope_item_count s wanted p z :
    how_many (fun path => exists k name x v, path = [k] /\ nth_error (c_envelope (r_vars s)) k = Some (name, x) /\ In name wanted /\
        envelope_value (E_A E) p z name (v_text (E_L E) x) v /\ v <> [])
      (length (filter ne (flat_map (envelope_values (E_L E) (E_A E) wanted p z) (c_envelope (r_vars s))))).
  Proof.
    rewrite filter_flat, length_flat. set (b := fun kv => match envelope_values (E_L E) (E_A E) wanted p z kv with [v] => ne v | _ => false end).
    assert (LE : forall kv, length (envelope_values (E_L E) (E_A E) wanted p z kv) <= 1).
    { intros [name x]. unfold envelope_values. cbn [fst snd]. destruct (existsb _ _); [|cbn; lia].
      destruct name; try (destruct (part_eval_string _ _ _)); try destruct z; try (destruct (dp_from_rfc3339 _ _)); cbn; lia. }
    assert (EQ : map (fun x => length (filter ne (envelope_values (E_L E) (E_A E) wanted p z x))) (c_envelope (r_vars s)) = map (fun x => if b x then 1 else 0) (c_envelope (r_vars s))).
    { apply map_ext. intro kv. unfold b. specialize (LE kv). destruct (envelope_values _ _ _ _ _ kv) as [|v [|]]; [reflexivity| |cbn in LE; lia]. cbn [filter]. destruct (ne v); reflexivity. }
    rewrite EQ, sum_filter. eapply hm_ext; [|apply (hm_filter b (fun kv => exists v, In (fst kv) wanted /\ envelope_value (E_A E) p z (fst kv) (v_text (E_L E) (snd kv)) v /\ v <> []))].
    - intro r. split.
      + intros (k & [name x] & -> & N & v & IW & EV & NE). exists k, name, x, v. auto.
      + intros (k & name & x & v & -> & N & IW & EV & NE). exists k, (name, x). eauto 6.
    - intros [name x] _. cbn [fst snd]. specialize (LE (name, x)). unfold b.
      assert (W : existsb (envk_eqb name) wanted = true <-> In name wanted).
      { rewrite existsb_exists. split; [intros (y & I & Q); apply envk_eqb_spec in Q; subst; exact I|intro I; exists name; split; [exact I|apply envk_eqb_spec; reflexivity]]. }
      split.
      + destruct (envelope_values _ _ _ _ _ (name, x)) as [|v [|]] eqn:EV; try discriminate. intro NV. exists v.
        assert (IV : In v (envelope_values (E_L E) (E_A E) wanted p z (name, x))) by (rewrite EV; left; reflexivity).
        apply (envelope_values_spec (E_L E) (E_rx E)) in IV as [A B]. split; [apply W, A|]. split; [exact B|]. destruct v; [discriminate|congruence].
      + intros (v & A & B & NE). assert (IV : In v (envelope_values (E_L E) (E_A E) wanted p z (name, x))).
        { apply (envelope_values_spec (E_L E) (E_rx E)). split; [apply W, A|exact B]. }
        destruct (envelope_values _ _ _ _ _ (name, x)) as [|w [|]]; [contradiction| |cbn in LE; lia]. destruct IV as [->|[]]. destruct v; [contradiction|reflexivity].
  Qed.

  Definition settles (s : rst) (t : test) (P : Prop) (neg : bool) : Prop :=
    exists b, exec_test E s t = XBool b s /\ (b = true <-> (P <-> neg = false)).
  Lemma settle s t P neg b : exec_test E s t = XBool (xorb b neg) s -> (b = true <-> P) -> settles s t P neg.
  Proof. intros X B. exists (xorb b neg). split; [exact X|]. rewrite <- B. destruct b, neg; cbn; intuition congruence. Qed.
  Lemma no_captures s : w_vars (set_vars (c_local (r_vars s)) (set_match_variables [] (c_match (r_vars s))) (r_vars s)) s = s.
  Proof. destruct s as [v]. destruct v. reflexivity. Qed.
  Lemma some_key s r n keys : existsb (fun k => rel_number r n (v_number (E_L E) k)) (evs E s keys) = true <->
    exists k, In k keys /\ rel_number r n (v_number (E_L E) (ev E s k)) = true.
  Proof.
    rewrite existsb_exists. unfold evs. split.
    - intros (x & I & R). apply in_map_iff in I as (k & <- & I). eauto.
    - intros (k & I & R). exists (ev E s k). split; [apply in_map; exact I|exact R].
  Qed.
  Lemma settle_items s t r neg n : (forall q, counts E s t q -> exists m, q = NInt (Z.of_nat m) /\ how_many (counted E s t) m) ->
    how_many (counted E s t) n -> counts E s t (NInt (Z.of_nat n)) ->
    exec_test E s t = XBool (xorb (existsb (fun k => rel_number r (NInt (Z.of_nat n)) (v_number (E_L E) k)) (evs E s (count_keys t))) neg) s ->
    settles s t (count_holds E s t r) neg.
  Proof.
    intros ONLY HM CN X. eapply settle; [exact X|]. rewrite some_key. unfold count_holds. split.
    - intros (k & I & R). eauto.
    - intros (q & k & C & I & R). destruct (ONLY q C) as (m & -> & HM'). rewrite (hm_unique _ _ _ HM' HM) in R. eauto.
  Qed.

  Ltac just := intros q C; inversion C; subst; eexists; split; [reflexivity|assumption].
  Theorem exec_counts s t c r neg : wf_deep (parts s) -> r_part s < length (parts s) -> match_of t = Some (c, MCount r, neg) ->
    settles s t (count_holds E s t r) neg.
  Proof.
    intros WD RP MO. assert (WF : well_formed (parts s)) by (inversion WD; assumption).
    destruct t; cbn [match_of] in MO; try discriminate; injection MO as -> -> ->.
    - (* header *)
      rename opts into o0. destruct (fields_count s names index anychild (header_count1 (mimeopts_of E s o0))
        (fun h rest => exists k, rest = [k] /\ header_item (mimeopts_of E s o0) h k) WF RP (header_item_count _)) as (found & FH & HM).
      set (n := list_sum _) in HM.
      assert (HC : how_many (counted E s (TeHeader names index anychild o0 c (MCount r) keys neg)) n).
      { eapply hm_ext; [|exact HM]. intro path. split.
        - intros (i & j & pos & rest & h & -> & FI & k & -> & HI). econstructor; [exact FI|apply options_spec|exact HI].
        - intro C. inversion C; subst. match goal with X : options_are _ _ _ _ |- _ => apply options_unique in X; subst end. do 5 eexists. split; [reflexivity|]. eauto. }
      apply (settle_items s _ r neg n); [just|exact HC|constructor; [exact Logic.I|exact HC]|].
      cbn [exec_test]. unfold header_test. rewrite FH. cbn [option_map of_tres]. rewrite no_captures. reflexivity.
    - (* address *)
      destruct (fields_count s names index anychild _ _ WF RP (address_item_count p)) as (found & FH & HM).
      set (n := list_sum _) in HM.
      assert (HC : how_many (counted E s (TeAddress names index anychild p c (MCount r) keys neg)) n).
      { eapply hm_ext; [|exact HM]. intro path. split.
        - intros (i & j & pos & rest & h & -> & FI & k & l & a & v & -> & A1 & A2 & A3 & A4). econstructor; eassumption.
        - intro C. inversion C; subst. do 5 eexists. split; [reflexivity|]. split; [eassumption|]. do 4 eexists. eauto. }
      apply (settle_items s _ r neg n); [just|exact HC|constructor; [exact Logic.I|exact HC]|].
      cbn [exec_test]. unfold address_test. rewrite FH. unfold values_test; cbn [option_map of_tres]. rewrite no_captures.
      assert (NN : length (filter (fun v : text => match v with [] => false | _ => true end) (flat_map (fun l => address_values (E_A E) p (l_header l)) found)) = n).
      { unfold n. change (fun v : text => match v with [] => false | _ => true end) with ne. rewrite filter_flat, length_flat. reflexivity. }
      revert NN. unfold text. intros <-. reflexivity.
    - (* envelope *)
      pose proof (envelope_item_count s wanted p z) as HM. set (n := length _) in HM.
      assert (HC : how_many (counted E s (TeEnvelope wanted p z c (MCount r) keys neg)) n).
      { eapply hm_ext; [|exact HM]. intro path. split.
        - intros (k & name & x & v & -> & A1 & A2 & A3 & A4). econstructor; eassumption.
        - intro C. inversion C; subst. do 4 eexists. eauto. }
      apply (settle_items s _ r neg n); [just|exact HC|constructor; [exact Logic.I|exact HC]|].
      cbn [exec_test of_tres]. unfold envelope_test, values_test. cbn [of_tres]. rewrite no_captures. reflexivity.
    - (* body *)
      set (t := TeBody bt subject c (MCount r) keys neg).
      assert (SUB : (if subject then subject_keys E s bt c (MCount r) keys else CRes false []) = CRes false []) by (destruct subject; reflexivity).
      destruct (deep_parts_exact (parts s) (r_part s) WD) as (ll & DP & ND & DA).
      assert (GO : forall types, (forall ty, (match bt with BtContent l => types_are E s l ty | _ => ty = [] end) <-> ty = types) ->
        exec_test E s t = of_tres s neg (body_test (E_L E) (E_rx E) (parts s) (r_part s) types (E_body E bt) c (MCount r) neg (evs E s keys)) ->
        settles s t (count_holds E s t r) neg).
      { intros types TY X.
        assert (HC : how_many (counted E s t) (length (filter (passes types) (map snd ll)))).
        { exists (map fst (filter (fun lp => passes types (snd lp)) ll)). split; [|split].
          - clear - ND. induction ll as [|[a b] ll IH]; [constructor|]. inversion ND; subst. cbn [filter snd]. destruct (passes types b); [|auto].
            cbn [map fst]. constructor; [|auto]. intro I. apply in_map_iff in I as (y & Q & I). apply filter_In in I as [I _].
            match goal with H : ~ In _ _ |- _ => apply H end. apply in_map_iff. exists y. auto.
          - intro path. rewrite in_map_iff. split.
            + intros ([pa p] & <- & I). apply filter_In in I as [I P]. apply DA in I. econstructor; [apply TY; reflexivity|exact I|exact P].
            + intro C. inversion C; subst. match goal with H : _ |- _ => apply TY in H; subst end. exists (path, p). split; [reflexivity|]. apply filter_In. split; [apply DA; assumption|assumption].
          - rewrite map_length. clear. induction ll as [|[a b] ll IH]; [reflexivity|]. cbn [filter map snd]. destruct (passes types b); cbn [length]; rewrite IH; reflexivity. }
        eapply settle_items; [just|exact HC| |].
        - constructor; [|exact HC]. subst t. destruct bt; try exact Logic.I. exists types. apply TY. reflexivity.
        - rewrite X. unfold body_test. rewrite DP. cbn [option_map of_tres]. rewrite no_captures. reflexivity. }
      destruct bt as [| |types].
      + apply (GO []); [reflexivity|]. unfold t. cbn [exec_test]. rewrite SUB. reflexivity.
      + apply (GO []); [reflexivity|]. unfold t. cbn [exec_test]. rewrite SUB. reflexivity.
      + destruct (ct_filters E s types) as [f|] eqn:CF.
        * apply (GO f); [|unfold t; cbn [exec_test]; rewrite SUB, CF; reflexivity]. intro ty. rewrite <- ct_filters_types, CF. split; [congruence|intros ->; reflexivity].
        * eapply (settle s t _ neg false); [unfold t; cbn [exec_test]; rewrite SUB, CF; reflexivity|]. split; [discriminate|].
          intros (q & k & C & _). inversion C as [? ? SIDE _| | | | |]; subst. destruct SIDE as (ty & T). apply ct_filters_types in T. congruence.
    - (* string *)
      assert (HC : how_many (counted E s (TeString sources c (MCount r) keys neg)) (length (filter (fun x => negb (v_is_empty (ev E s x))) sources))).
      { eapply hm_ext; [|apply (hm_filter _ (fun x => v_is_empty (ev E s x) = false)); intros x _; apply negb_true_iff]. intro path. split.
        - intros (k & x & -> & A & B). econstructor; eassumption.
        - intro C. inversion C; subst. eauto. }
      eapply settle_items; [just|exact HC|constructor; [exact Logic.I|exact HC]|].
      cbn [exec_test of_tres]. unfold string_test. rewrite no_captures. unfold evs. rewrite filter_map_length. reflexivity.
    - (* environment *)
      set (n := length (filter (fun x => negb (v_is_empty (ev E s x))) sources)).
      assert (HC : how_many (counted E s (TeEnvironment sources c (MCount r) keys neg)) n).
      { eapply hm_ext; [|apply (hm_filter _ (fun x => v_is_empty (ev E s x) = false)); intros x _; apply negb_true_iff]. intro path. split.
        - intros (k & x & -> & A & B). econstructor; eassumption.
        - intro C. inversion C; subst. eauto. }
      eapply settle.
      + cbn [exec_test of_tres]. unfold string_test. rewrite no_captures. unfold evs at 1 2. rewrite filter_map_length. fold n. reflexivity.
      + cbn [negb orb]. rewrite andb_true_iff, some_key, Z.ltb_lt. unfold count_holds. split.
        * intros (P & k & I & R). exists (NInt (Z.of_nat n)), k. split; [constructor; [lia|exact HC]|]. auto.
        * intros (q & k & C & I & R). inversion C as [? m SIDE HM| | | | |]; subst. rewrite (hm_unique _ _ _ HM HC) in *. split; [lia|]. eauto.
    - (* hasflag *)
      set (vs := match vars with [] => [default_flags] | _ => vars end).
      assert (HC : how_many (counted E s (TeHasFlag vars flags c (MCount r) neg)) (length (flat_map (fun n => flags_of_var (E_L E) (get_variable (vw E s) n)) vs))).
      { rewrite length_flat. eapply hm_ext; [|apply (hm_list _ (fun _ n rest => exists k v, rest = [k] /\ nth_error (flags_of_var (E_L E) (get_variable (vw E s) n)) k = Some v /\ True))].
        - intro path. split.
          + intros (j & n & rest & -> & A & k & v & -> & B & _). econstructor; eassumption.
          + intro C. inversion C; subst. do 3 eexists. split; [reflexivity|]. split; [eassumption|]. eauto 6.
        - intros j n _. set (fl := flags_of_var (E_L E) (get_variable (vw E s) n)).
          pose proof (hm_filter (fun _ : text => true) (fun _ => True) fl (fun _ _ => conj (fun _ => Logic.I) (fun _ => eq_refl))) as H.
          replace (length fl) with (length (filter (fun _ : text => true) fl)); [exact H|]. clear. induction fl; cbn; congruence. }
      eapply settle_items; [just|exact HC|constructor; [exact Logic.I|exact HC]|].
      cbn [exec_test of_tres]. unfold hasflag. fold vs. rewrite no_captures. cbn [count_keys]. f_equal. f_equal.
      unfold evs. rewrite existsb_map. reflexivity.
    - (* date *)
      set (t := TeDate name index anychild p z c (MCount r) keys neg). destruct (hn_parse (E_M E) (tx s name)) as [nm|] eqn:HP.
      + destruct (fields_count s [name] index anychild (fun h => length (date_values (E_A E) p z h)) (fun h rest => rest = [] /\ dp_parse (E_A E) h <> None) WF RP) as (found & FH & HM).
        { intro h. unfold date_values. pose proof (hm_unit (dp_parse (E_A E) h <> None) (match dp_parse (E_A E) h with Some _ => true | None => false end)) as H.
          destruct (dp_parse (E_A E) h); apply H; split; congruence. }
        assert (HC : how_many (counted E s t) (list_sum (map (fun l => length (date_values (E_A E) p z (l_header l))) found))).
        { destruct HM as (l & ND & IN & LE). exists (map (fun path => match path with [i; _; pos] => [i; pos] | _ => [] end) l). split; [|split; [|rewrite map_length; exact LE]].
          - assert (SH : forall path, In path l -> exists i pos, path = [i; 0; pos]).
            { intros path I. apply IN in I as (i & j & pos & rest & h & -> & (pp & x & n & _ & NJ & _) & -> & _). exists i, pos. destruct j as [|[|]]; [reflexivity|discriminate..]. }
            clear - ND SH. induction l as [|a l IH]; [constructor|]. inversion ND; subst. cbn [map]. constructor; [|apply IH; [assumption|intros; apply SH; right; assumption]].
            intro I. apply in_map_iff in I as (b & Q & I). destruct (SH a (or_introl eq_refl)) as (i & pos & ->). destruct (SH b (or_intror I)) as (i' & pos' & ->).
            injection Q as -> ->. contradiction.
          - intro path. rewrite in_map_iff. split.
            + intros (q & <- & I). apply IN in I as (i & j & pos & rest & h & -> & FI & -> & DP). assert (j = 0) as ->.
              { destruct FI as (pp & x & n & _ & NJ & _). destruct j as [|[|]]; [reflexivity|discriminate..]. }
              destruct (dp_parse (E_A E) h) as [d|] eqn:D; [|contradiction]. econstructor; eassumption.
            + intro C. inversion C; subst. exists [i; 0; pos]. split; [reflexivity|]. apply IN. do 5 eexists. split; [reflexivity|]. split; [eassumption|]. split; [reflexivity|congruence]. }
        eapply settle_items; [just|exact HC|constructor; [unfold t; rewrite HP; discriminate|exact HC]|].
        unfold t. cbn [exec_test]. unfold date_test, header_name. rewrite HP.
        assert (PN : parse_header_names (E_L E) (E_M E) (vw E s) [name] = [nm]).
        { unfold parse_header_names. cbn [flat_map]. change (v_text (E_L E) (eval_value (E_L E) (vw E s) name)) with (tx s name). rewrite HP. reflexivity. }
        rewrite PN in FH. rewrite FH. cbn [option_map of_tres]. rewrite no_captures, length_flat. reflexivity.
      + eapply (settle s t _ neg false); [unfold t; cbn [exec_test]; unfold date_test, header_name; rewrite HP; cbn [of_tres]; rewrite no_captures; reflexivity|].
        split; [discriminate|]. intros (q & k & C & _). inversion C as [? ? SIDE _| | | | |]; subst. congruence.
    - (* currentdate *)
      eapply settle; [cbn [exec_test of_tres]; unfold currentdate_test; rewrite no_captures; reflexivity|]. rewrite some_key. unfold count_holds. split.
      + intros (k & I & R). exists (NFloat (f64_of_Z 1)), k. split; [constructor|]. auto.
      + intros (q & k & C & I & R). inversion C; subst; [contradiction|]. eauto.
    - (* notify_method_capability *)
      destruct (teqb_ic (tx s cap) (lit "online") && uri_allowed E (tx s uri)) eqn:OK.
      + apply andb_true_iff in OK as OK'. destruct OK' as [O U]. apply teqb_ic_spec in O. apply uri_allowed_spec in U.
        eapply settle; [cbn [exec_test]; rewrite OK; reflexivity|]. rewrite some_key. unfold count_holds. split.
        * intros (k & I & R). exists (NFloat (f64_of_Z 1)), k. split; [constructor; assumption|]. auto.
        * intros (q & k & C & I & R). inversion C; subst; [contradiction|]. eauto.
      + eapply (settle s _ _ neg false); [cbn [exec_test]; rewrite OK; reflexivity|]. split; [discriminate|].
        intros (q & k & C & I & R). inversion C as [? ? SIDE| | |? ? ? ? ? ? O U| |]; [contradiction|].
        apply uri_allowed_spec in U. rewrite U, andb_true_r in OK. apply (proj2 (teqb_ic_spec (tx s cap) (lit "online"))) in O.
        rewrite O in OK. discriminate.
    - (* metadata *)
      pose proof (fun v => stored_find E s md v) as ST. cbn [exec_test] in *.
      destruct (find (fun p => md_eq (fst p) (metadata_of E s md)) (E_metadata E)) as [[m' v]|] eqn:FI.
      + eapply settle; [cbn [exec_test]; unfold metadata_test; rewrite FI; cbn [of_tres]; rewrite no_captures; reflexivity|]. rewrite some_key. unfold count_holds. split.
        * intros (k & I & R). exists (NFloat (f64_of_Z 1)), k. split; [apply (cn_metadata _ _ _ _ _ _ _ v), ST; exists m'; reflexivity|]. auto.
        * intros (q & k & C & I & R). inversion C; subst; [contradiction|]. eauto.
      + eapply (settle s _ _ neg false); [cbn [exec_test]; unfold metadata_test; rewrite FI; cbn [of_tres]; rewrite no_captures; reflexivity|]. split; [discriminate|].
        intros (q & k & C & I & R). inversion C; subst; [contradiction|]. match goal with S : stored_value _ _ _ _ |- _ => apply ST in S as (? & X); congruence end.
    - (* spam *)
      eapply (settle s _ _ neg (rel_number r (NFloat (match E_spam E with SpUnknown => f64_zero | _ => f64_1_1 end)) (v_number (E_L E) (ev E s key)))).
      + cbn [exec_test]. unfold spam_test, score_test. cbn [of_tres]. rewrite no_captures. destruct (E_spam E); reflexivity.
      + unfold count_holds. split.
        * intro R. do 2 eexists. split; [apply cn_spam|]. split; [left; reflexivity|exact R].
        * intros (q & k & C & [<-|[]] & R). inversion C; subst; [contradiction|]. exact R.
    - (* virus *)
      eapply (settle s _ _ neg (rel_number r (NFloat (match E_virus E with ViUnknown => f64_zero | _ => f64_1_1 end)) (v_number (E_L E) (ev E s key)))).
      + cbn [exec_test]. unfold virus_test, score_test. cbn [of_tres]. rewrite no_captures. destruct (E_virus E); reflexivity.
      + unfold count_holds. split.
        * intro R. do 2 eexists. split; [apply cn_virus|]. split; [left; reflexivity|exact R].
        * intros (q & k & C & [<-|[]] & R). inversion C; subst; [contradiction|]. exact R.
  Qed.

  Lemma counted_moved s t path : counted E (moved_on s) t path <-> counted E s t path.
  Proof.
    split; intro H; inversion H; subst; try (econstructor; eassumption).
    all: econstructor; [|eassumption|eassumption]; match goal with |- match ?b with _ => _ end => destruct b end; try eassumption; apply types_moved; assumption.
  Qed.
  Lemma counts_moved s t n : counts E (moved_on s) t n <-> counts E s t n.
  Proof.
    split; intro H; inversion H as [? ? SIDE HM| | | | |]; subst; try (econstructor; eassumption).
    - constructor; [|eapply hm_ext; [|exact HM]; intro; apply counted_moved].
      destruct t; try exact SIDE. destruct bt; try exact SIDE. destruct SIDE as (ty & T). exists ty. apply (proj1 (types_moved E s _ _)) in T. exact T.
    - constructor; [|eapply hm_ext; [|exact HM]; intro; symmetry; apply counted_moved].
      destruct t; try exact SIDE. destruct bt; try exact SIDE. destruct SIDE as (ty & T). exists ty. apply types_moved. exact T.
  Qed.
  Theorem count_step s t c r neg : wf_deep (parts s) -> r_part s < length (parts s) -> at_test E s t -> match_of t = Some (c, MCount r, neg) ->
    exists b, step E s = SCont (w_test b (moved_on s)) /\ (b = true <-> (count_holds E s t r <-> neg = false)).
  Proof.
    intros WD RP AT MO. destruct (exec_counts (moved_on s) t c r neg WD RP MO) as (b & X & B). exists b. rewrite (step_test E s t AT), X. split; [reflexivity|].
    rewrite B. assert (M : count_holds E (moved_on s) t r <-> count_holds E s t r).
    { unfold count_holds. split; intros (n & k & C & I & R); exists n, k; (split; [apply counts_moved, C|split; [exact I|exact R]]). }
    rewrite M. reflexivity.
  Qed.
End C.
