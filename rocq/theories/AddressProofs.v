(** Proofs about addresses. *)
From Verif Require Import Base Lib Address AddressSpec.

(** *** sanitize_address *)
Definition at_inv (result : text) (has_at has_dot : bool) : Prop :=
  (has_at = true -> exists local d, local <> [] /\ result = local ++ c_at :: d) /\
  (has_dot = true -> has_at = true /\ dotted_address result).

Lemma at_inv_snoc r c a d : at_inv r a d -> at_inv (r ++ [c]) a d.
Proof.
  intros [A B]. split.
  - intro H. destruct (A H) as (local & x & NE & ->). exists local, (x ++ [c]). split; [exact NE|]. rewrite <- app_assoc. reflexivity.
  - intro H. destruct (B H) as (B1 & local & d1 & d2 & NE & ->). split; [exact B1|]. exists local, d1, (d2 ++ [c]). split; [exact NE|].
    rewrite <- !app_assoc. cbn [app]. rewrite <- app_assoc. reflexivity.
Qed.
Lemma at_inv_nil : at_inv [] false false.
Proof. split; discriminate. Qed.

Lemma sanitize_go_ok : forall s result q last a d r,
  Forall (fun c => ~ angle_or_quote c) result -> at_inv result a d ->
  sanitize_go s result q last a d = Some r ->
  Forall (fun c => ~ angle_or_quote c) r /\ dotted_address r.
Proof.
  induction s as [|c s IH]; intros result q last a d r F I E; cbn [sanitize_go] in E.
  - destruct result as [|x result]; [discriminate|]. destruct a; [|discriminate]. destruct d; [|discriminate].
    injection E as <-. split; [exact F|]. apply I. reflexivity.
  - destruct (N.eqb_spec c c_dquote) as [->|NQ].
    { eapply IH; eassumption. }
    destruct (N.eqb c c_at && negb q) eqn:EA.
    { apply andb_true_iff in EA as [EA _]. apply N.eqb_eq in EA. subst c.
      destruct result as [|x0 res0] eqn:ER; [discriminate|]. rewrite <- ER in *. destruct a; [discriminate|].
      eapply IH; [| |exact E].
      - apply Forall_app. split; [exact F|]. repeat constructor. intros [X|[X|X]]; discriminate.
      - split.
        + intros _. exists result, []. split; [congruence|reflexivity].
        + intro D. destruct I as [_ I]. destruct (I D) as [X _]. discriminate. }
    destruct (N.eqb c c_dot && negb q && a && negb d) eqn:ED.
    { apply andb_true_iff in ED as [ED D]. apply andb_true_iff in ED as [ED A]. apply andb_true_iff in ED as [ED _].
      apply N.eqb_eq in ED. subst c. subst a. destruct d; [discriminate|].
      eapply IH; [| |exact E].
      - apply Forall_app. split; [exact F|]. repeat constructor. intros [X|[X|X]]; discriminate.
      - split.
        + apply (at_inv_snoc result c_dot true false I).
        + intros _. split; [reflexivity|]. destruct I as [I _]. destruct (I eq_refl) as (local & x & NE & ->).
          exists local, x, []. split; [exact NE|]. rewrite <- app_assoc. reflexivity. }
    destruct (N.eqb_spec c 60) as [->|NL].
    { eapply IH; [constructor|apply at_inv_nil|exact E]. }
    destruct (N.eqb_spec c 62) as [->|NG].
    { eapply IH; eassumption. }
    destruct (negb (is_ws_ascii c) || q).
    + eapply IH; [|apply at_inv_snoc, I|exact E]. apply Forall_app. split; [exact F|]. repeat constructor.
      intros [X|[X|X]]; congruence.
    + eapply IH; eassumption.
Qed.
Lemma sanitize_ok addr r : sanitize_address addr = Some r ->
  Forall (fun c => ~ angle_or_quote c) r /\ dotted_address r.
Proof. apply sanitize_go_ok; [constructor|apply at_inv_nil]. Qed.

(** Without double quotes in the input. *)
Definition one_at (r : text) (a : bool) : Prop :=
  if a then exists local d, r = local ++ c_at :: d /\ ~ In c_at local /\ ~ In c_at d else ~ In c_at r.
Lemma one_at_snoc r c a : c <> c_at -> one_at r a -> one_at (r ++ [c]) a.
Proof.
  intros NE. destruct a; simpl.
  - intros (local & d & -> & A & B). exists local, (d ++ [c]). split; [rewrite <- app_assoc; reflexivity|]. split; [exact A|].
    intro I. apply in_app_or in I as [I|[I|[]]]; [exact (B I)|congruence].
  - intros A I. apply in_app_or in I as [I|[I|[]]]; [exact (A I)|congruence].
Qed.
Lemma sanitize_go_plain : forall s result last a d r,
  ~ In c_dquote s -> Forall (fun c => is_ws_ascii c = false) result -> one_at result a ->
  sanitize_go s result false last a d = Some r ->
  Forall (fun c => is_ws_ascii c = false) r /\ one_at r true.
Proof.
  induction s as [|c s IH]; intros result last a d r NQ F O E; cbn [sanitize_go] in E.
  - destruct result as [|x result]; [discriminate|]. destruct a; [|discriminate]. destruct d; [|discriminate].
    injection E as <-. auto.
  - assert (NQ' : ~ In c_dquote s) by (intro X; apply NQ; right; exact X).
    destruct (N.eqb_spec c c_dquote) as [->|NQc]; [exfalso; apply NQ; left; reflexivity|].
    cbn [negb andb] in E. rewrite andb_true_r in E. destruct (N.eqb_spec c c_at) as [->|NA].
    { destruct result as [|x0 res0] eqn:ER; [discriminate|]. rewrite <- ER in *. destruct a; [discriminate|].
      eapply IH; [exact NQ'| | |exact E].
      - apply Forall_app. split; [exact F|]. repeat constructor.
      - simpl. exists result, []. split; [reflexivity|]. split; [exact O|intros []]. }
    rewrite andb_true_r in E. destruct (N.eqb c c_dot && a && negb d) eqn:ED.
    { apply andb_true_iff in ED as [ED _]. apply andb_true_iff in ED as [ED _]. apply N.eqb_eq in ED. subst c.
      eapply IH; [exact NQ'| | |exact E].
      - apply Forall_app. split; [exact F|]. repeat constructor.
      - apply one_at_snoc; [exact NA|exact O]. }
    destruct (N.eqb c 60).
    { eapply IH; [exact NQ'|constructor| |exact E]. intros []. }
    destruct (N.eqb c 62).
    { eapply IH; eassumption. }
    rewrite orb_false_r in E. destruct (is_ws_ascii c) eqn:W; cbn [negb] in E.
    + eapply IH; eassumption.
    + eapply IH; [exact NQ'| |apply one_at_snoc; [exact NA|exact O]|exact E].
      apply Forall_app. split; [exact F|]. repeat constructor. exact W.
Qed.

(** Plain addresses go through unchanged, with or without display name. *)
Definition plain_char (c : ch) : Prop :=
  c <> c_dquote /\ c <> c_at /\ c <> 60%N /\ c <> 62%N /\ is_ws_ascii c = false.
Lemma sanitize_go_chars : forall s t result last a d, Forall plain_char s ->
  exists last', sanitize_go (s ++ t) result false last a d =
    sanitize_go t (result ++ s) false last' a (d || (a && existsb (N.eqb c_dot) s)).
Proof.
  induction s as [|c s IH]; intros t result last a d F.
  - exists last. cbn [app existsb]. rewrite app_nil_r, andb_false_r, orb_false_r. reflexivity.
  - inversion F as [|? ? P F']; subst. destruct P as (P1 & P2 & P3 & P4 & P5). cbn [app sanitize_go].
    apply N.eqb_neq in P1, P2, P3, P4. rewrite P1, P2, P3, P4, P5. cbn [andb negb orb]. rewrite andb_true_r.
    assert (X : existsb (N.eqb c_dot) (c :: s) = N.eqb c c_dot || existsb (N.eqb c_dot) s)
      by (cbn [existsb]; rewrite N.eqb_sym; reflexivity).
    rewrite X. destruct (N.eqb c c_dot && a && negb d) eqn:ED.
    + destruct (IH t (result ++ [c]) c a true F') as (l' & ->). exists l'. rewrite <- app_assoc. cbn [app orb].
      apply andb_true_iff in ED as [ED D]. apply andb_true_iff in ED as [ED A]. rewrite ED, A. cbn [andb orb]. rewrite orb_true_r. reflexivity.
    + destruct (IH t (result ++ [c]) c a d F') as (l' & ->). exists l'. rewrite <- app_assoc. cbn [app]. f_equal.
      destruct d, a, (N.eqb c c_dot); try reflexivity; discriminate.
Qed.
Lemma sanitize_go_addr local d1 d2 t last :
  Forall plain_char local -> local <> [] -> Forall plain_char d1 -> Forall plain_char d2 ->
  exists last', sanitize_go ((local ++ c_at :: d1 ++ c_dot :: d2) ++ t) [] false last false false =
    sanitize_go t (local ++ c_at :: d1 ++ c_dot :: d2) false last' true true.
Proof.
  intros F1 NE F2 F3. rewrite <- app_assoc. destruct (sanitize_go_chars local ((c_at :: d1 ++ c_dot :: d2) ++ t) [] last false false F1) as (l1 & ->).
  cbn [app andb orb sanitize_go]. change (N.eqb c_at c_dquote) with false. change (N.eqb c_at c_at) with true. cbn [andb negb].
  destruct local as [|x local]; [congruence|]. 
  assert (F23 : Forall plain_char (d1 ++ c_dot :: d2)).
  { apply Forall_app. split; [exact F2|]. constructor; [|exact F3]. repeat split; discriminate. }
  destruct (sanitize_go_chars (d1 ++ c_dot :: d2) t ((x :: local) ++ [c_at]) c_at true false F23) as (l2 & ->).
  exists l2. rewrite <- app_assoc. cbn [andb orb].
  assert (X : existsb (N.eqb c_dot) (d1 ++ c_dot :: d2) = true).
  { rewrite existsb_app. cbn [existsb]. rewrite N.eqb_refl, orb_true_r. reflexivity. }
  rewrite X. reflexivity.
Qed.
Lemma sanitize_plain local d1 d2 : Forall plain_char local -> local <> [] -> Forall plain_char d1 -> Forall plain_char d2 ->
  sanitize_address (local ++ c_at :: d1 ++ c_dot :: d2) = Some (local ++ c_at :: d1 ++ c_dot :: d2).
Proof.
  intros F1 NE F2 F3. unfold sanitize_address.
  destruct (sanitize_go_addr local d1 d2 [] c_lf F1 NE F2 F3) as (l & E). rewrite app_nil_r in E. rewrite E. cbn [sanitize_go].
  destruct local; reflexivity.
Qed.
(** a display name without the four special characters *)
Lemma sanitize_named name local d1 d2 :
  Forall (fun c => c <> c_dquote /\ c <> c_at /\ c <> 60%N /\ c <> 62%N) name ->
  Forall plain_char local -> local <> [] -> Forall plain_char d1 -> Forall plain_char d2 ->
  sanitize_address (name ++ 60%N :: (local ++ c_at :: d1 ++ c_dot :: d2) ++ [62%N]) = Some (local ++ c_at :: d1 ++ c_dot :: d2).
Proof.
  intros FN F1 NE F2 F3. unfold sanitize_address.
  assert (SK : forall nm t result last, Forall (fun c => c <> c_dquote /\ c <> c_at /\ c <> 60%N /\ c <> 62%N) nm ->
    exists r' l', sanitize_go (nm ++ 60%N :: t) result false last false false = sanitize_go t [] false l' false false /\ r' = l').
  { clear. induction nm as [|c nm IH]; intros t result last F; cbn [app sanitize_go].
    - exists 60%N, 60%N. split; reflexivity.
    - inversion F as [|? ? (P1 & P2 & P3 & P4) F']; subst. apply N.eqb_neq in P1, P2, P3, P4. rewrite P1, P2, P3, P4.
      cbn [andb negb orb]. rewrite andb_true_r, andb_false_r. cbn [andb].
      destruct (negb (is_ws_ascii c) || false); apply IH; exact F'. }
  destruct (SK name ((local ++ c_at :: d1 ++ c_dot :: d2) ++ [62%N]) [] c_lf FN) as (_ & l1 & -> & _).
  destruct (sanitize_go_addr local d1 d2 [62%N] l1 F1 NE F2 F3) as (l & ->). cbn [sanitize_go].
  destruct local; reflexivity.
Qed.

(** *** display name *)
Lemma escape_quoted name rest : quoted (escape_name name ++ c_dquote :: rest) name rest.
Proof.
  unfold escape_name. induction name as [|c name IH]; cbn [flat_map app]; [constructor|].
  destruct (N.eqb c c_dquote || N.eqb c c_bslash) eqn:E; cbn [app].
  - apply q_esc. exact IH.
  - apply orb_false_iff in E as [E1 E2]. apply N.eqb_neq in E1, E2. apply q_chr; assumption.
Qed.
Lemma quoted_functional s t rest : quoted s t rest -> forall t' rest', quoted s t' rest' -> t = t' /\ rest = rest'.
Proof.
  induction 1 as [rest|c s t rest Q IH|c s t rest N1 N2 Q IH]; intros t' rest' Q'; inversion Q'; subst; auto; try congruence.
  - match goal with H : quoted s _ _ |- _ => destruct (IH _ _ H) as [-> ->] end. auto.
  - match goal with H : quoted s _ _ |- _ => destruct (IH _ _ H) as [-> ->] end. auto.
Qed.

(** *** parse_envelope_address *)
Definition seg (start : nat) (pre : list N) : list N := skipn start pre.
Definition pathc (c : N) : Prop := (c < 128)%N /\ is_ws_ascii c = false /\ c <> 60%N /\ c <> 62%N /\ c <> 58%N.

(** The text consumed so far, given the state.  [opened]: it starts with '<'. *)
Record env_inv (len : nat) (pre : list N) (st : envst) : Prop := {
  i_end : e_end st = len;
  i_le : e_start st <= length pre;
  i_last : forall p c, pre = p ++ [c] -> e_last st = c;
  i_last0 : pre = [] -> e_last st = 0%N;
  (* '<' only first *)
  i_bracket : e_bracket st = true <-> exists pre', pre = 60%N :: pre';
  i_open : e_bracket st = true -> 1 <= e_start st;
  (* where the segment starts *)
  i_start : e_start st = 0 \/ (e_start st = 1 /\ exists p, pre = 60%N :: p) \/
            (exists route, firstn (e_start st) pre = route ++ [58%N]);
  (* what the segment is made of *)
  i_seg : Forall pathc (seg (e_start st) pre);
  i_comma : e_path st = false -> ~ In 44%N (seg (e_start st) pre);
  (* the '@' *)
  i_at0 : e_at st = 0 -> e_path st = false -> ~ In c_at (seg (Nat.max 1 (e_start st)) pre);
  i_at : e_at st <> 0 -> exists a b : list N, pre = a ++ c_at :: b /\ length a = e_at st /\
           (e_path st = false -> e_start st <= e_at st /\ ~ In c_at (seg (Nat.max 1 (e_start st)) a)) /\
           ~ In c_at b /\ no_double_dot b
}.

Lemma skipn_snoc {A} n (l : list A) c : n <= length l -> skipn n (l ++ [c]) = skipn n l ++ [c].
Proof.
  intro H. rewrite skipn_app. replace (n - length l) with 0 by lia. reflexivity.
Qed.
Lemma snoc_inj {A} (a b : list A) x y : a ++ [x] = b ++ [y] -> a = b /\ x = y.
Proof. apply app_inj_tail. Qed.

Lemma ndd_snoc b c : no_double_dot b -> (c = c_dot -> b <> [] /\ forall b', b <> b' ++ [c_dot]) -> no_double_dot (b ++ [c]).
Proof.
  intros [A B] H. split.
  - intros d' E. destruct b as [|x b]; simpl in E.
    + injection E as -> _. destruct (H eq_refl) as [X _]. congruence.
    + injection E as -> _. exact (A b eq_refl).
  - intros u v E. destruct v as [|y v] using rev_ind.
    + replace (u ++ [c_dot; c_dot]) with ((u ++ [c_dot]) ++ [c_dot]) in E by (rewrite <- app_assoc; reflexivity).
      apply snoc_inj in E as [-> ->]. destruct (H eq_refl) as [_ X]. exact (X u eq_refl).
    + clear IHv. replace (u ++ c_dot :: c_dot :: v ++ [y]) with ((u ++ c_dot :: c_dot :: v) ++ [y]) in E
        by (rewrite <- app_assoc; reflexivity).
      apply snoc_inj in E as [-> _]. exact (B u v eq_refl).
Qed.

Lemma firstn_snoc {A} n (l : list A) c : n <= length l -> firstn n (l ++ [c]) = firstn n l.
Proof. intro H. rewrite firstn_app. replace (n - length l) with 0 by lia. simpl. apply app_nil_r. Qed.

Lemma seg_snoc_in n pre c x : n <= length pre \/ n <= 1 -> In x (seg n (pre ++ [c])) -> In x (seg n pre) \/ (x = c /\ n <= length pre).
Proof.
  unfold seg. intros H I. destruct (le_lt_dec n (length pre)) as [L|L].
  - rewrite skipn_snoc in I by exact L. apply in_app_or in I as [I|[I|[]]]; auto.
  - exfalso. rewrite skipn_all2 in I; [contradiction|]. rewrite app_length. simpl. lia.
Qed.

(** An ordinary character: start, end, bracket, path, at unchanged. *)
Lemma inv_plain len pre st c :
  env_inv len pre st -> pathc c -> c <> 44%N -> c <> c_at ->
  (c = c_dot -> (e_at st <> 0 -> e_last st <> c_dot) /\ e_last st <> c_at) ->
  (e_bracket st = true -> pre <> []) -> (pre = [] -> e_bracket st = false) ->
  env_inv len (pre ++ [c])
    {| e_start := e_start st; e_end := e_end st; e_last := c; e_at := e_at st; e_bracket := e_bracket st; e_path := e_path st |}.
Proof.
  intros I PC NC NA DOT BNE _. destruct I. constructor; cbn [e_start e_end e_last e_at e_bracket e_path].
  - exact i_end0.
  - rewrite app_length. lia.
  - intros p c' E. apply snoc_inj in E as [_ E]. exact E.
  - intro E. destruct pre; discriminate.
  - rewrite i_bracket0. split; [intros (p & ->); exists (p ++ [c]); reflexivity|]. intros (p & E). destruct pre as [|x pre].
    + simpl in E. injection E as -> ->. destruct PC as (_ & _ & X & _). congruence.
    + injection E as -> _. eauto.
  - exact i_open0.
  - destruct i_start0 as [S|[[S (p & ->)]|(route & S)]]; [left; exact S|right; left; split; [exact S|exists (p ++ [c]); reflexivity]|].
    right. right. exists route. rewrite firstn_snoc by exact i_le0. exact S.
  - unfold seg in *. rewrite skipn_snoc by exact i_le0. apply Forall_app. split; [exact i_seg0|]. repeat constructor; apply PC.
  - intros P X. specialize (i_comma0 P). apply seg_snoc_in in X as [X|[X _]]; [exact (i_comma0 X)|congruence|left; exact i_le0].
  - intros A P X. specialize (i_at1 A P). apply seg_snoc_in in X as [X|[X _]]; [exact (i_at1 X)|congruence|lia].
  - intros A. destruct (i_at2 A) as (a & b & E & LN & S & NB & ND). exists a, (b ++ [c]).
    split; [rewrite E, <- app_assoc; reflexivity|]. split; [exact LN|]. split; [exact S|]. split.
    + intro X. apply in_app_or in X as [X|[X|[]]]; [exact (NB X)|congruence].
    + apply ndd_snoc; [exact ND|]. intros ->. destruct (DOT eq_refl) as [D1 D2]. split.
      * intros ->. apply D2. apply (i_last1 a c_at). exact E.
      * intros b' ->. apply (D1 A). apply (i_last1 (a ++ c_at :: b') c_dot). rewrite E, <- app_assoc. reflexivity.
Qed.

Lemma seg_app_le n a b : n <= length a -> seg n (a ++ b) = seg n a ++ b.
Proof. intro H. unfold seg. rewrite skipn_app. replace (n - length a) with 0 by lia. reflexivity. Qed.

Lemma ndd_nil : no_double_dot [].
Proof. split; [discriminate|]. intros a b E. destruct a; discriminate. Qed.

Lemma env_step_inv len pre c st st' :
  env_inv len pre st -> length pre < len ->
  env_step len (length pre) c st = EGo st' -> c <> 62%N ->
  env_inv len (pre ++ [c]) st'.
Proof.
  intros I LT E NG. unfold env_step in E.
  destruct (N.eqb_spec c 60) as [->|N60].
  { destruct (Nat.eqb_spec (length pre) 0) as [Z|Z]; [|discriminate]. destruct pre; [|discriminate]. injection E as <-.
    destruct I. simpl in *. constructor; cbn [e_start e_end e_last e_at e_bracket e_path length]; try reflexivity; try lia; auto.
    - intros p c E. destruct p as [|? [|]]; cbn [app] in E; [injection E as ->; reflexivity|discriminate|discriminate].
    - discriminate.
    - split; [intros _; exists []; reflexivity|reflexivity].
    - right. left. split; [reflexivity|exists []; reflexivity].
    - constructor.
    - intros A. exfalso. destruct (i_at2 A) as (a & b & X & _). destruct a; discriminate. }
  destruct (N.eqb_spec c 62) as [->|_]; [congruence|].
  destruct (N.eqb_spec c 58) as [->|N58].
  { destruct (Nat.eqb_spec (e_at st) 0) as [Z|Z]; [discriminate|]. cbn [negb] in E. injection E as <-.
    destruct I. constructor; cbn [e_start e_end e_last e_at e_bracket e_path]; rewrite ?app_length; simpl; try lia.
    - intros p c E. apply snoc_inj in E as [_ E]. exact E.
    - destruct pre; discriminate.
    - rewrite i_bracket0. split; [intros (p & ->); exists (p ++ [58%N]); reflexivity|]. intros (p & E). destruct pre as [|x pre]; [discriminate|].
      injection E as -> _. eauto.
    - right. right. exists pre. rewrite firstn_all2; [reflexivity|]. rewrite app_length. simpl. lia.
    - unfold seg. rewrite skipn_all2; [constructor|]. rewrite app_length. simpl. lia.
    - intros _. unfold seg. rewrite skipn_all2; [intros []|]. rewrite app_length. simpl. lia.
    - intros _ _. unfold seg. rewrite skipn_all2; [intros []|]. rewrite app_length. simpl. destruct (length pre + 1) eqn:Q; lia. }
  destruct (N.eqb_spec c 44) as [->|N44].
  { destruct (Nat.eqb_spec (e_at st) 0) as [Z|Z]; [discriminate|]. cbn [negb] in E. injection E as <-.
    destruct I. constructor; cbn [e_start e_end e_last e_at e_bracket e_path]; rewrite ?app_length; simpl; try lia; try discriminate.
    - intros p c E. apply snoc_inj in E as [_ E]. exact E.
    - destruct pre; discriminate.
    - rewrite i_bracket0. split; [intros (p & ->); exists (p ++ [44%N]); reflexivity|]. intros (p & E). destruct pre as [|x pre]; [discriminate|].
      injection E as -> _. eauto.
    - destruct i_start0 as [S|[[S (p & ->)]|(route & S)]]; [left; exact S|right; left; split; [exact S|exists (p ++ [44%N]); reflexivity]|].
      right. right. exists route. rewrite firstn_snoc by exact i_le0. exact S.
    - unfold seg in *. rewrite skipn_snoc by exact i_le0. apply Forall_app. split; [exact i_seg0|]. repeat constructor; discriminate. }
  destruct (N.eqb_spec c c_at) as [->|NA].
  { destruct (Nat.eqb_spec (e_at st) 0) as [Z|Z]; [|discriminate]. cbn [andb] in E.
    destruct (Nat.eqb_spec (length pre) (len - 1)) as [Z2|Z2]; [discriminate|]. cbn [negb] in E. injection E as <-.
    destruct I. constructor; cbn [e_start e_end e_last e_at e_bracket e_path]; rewrite ?app_length; simpl; try lia.
    - intros p c E. apply snoc_inj in E as [_ E]. exact E.
    - destruct pre; discriminate.
    - rewrite i_bracket0. split; [intros (p & ->); exists (p ++ [c_at]); reflexivity|]. intros (p & E). destruct pre as [|x pre]; [discriminate|].
      injection E as -> _. eauto.
    - destruct i_start0 as [S|[[S (p & ->)]|(route & S)]]; [left; exact S|right; left; split; [exact S|exists (p ++ [c_at]); reflexivity]|].
      right. right. exists route. rewrite firstn_snoc by exact i_le0. exact S.
    - unfold seg in *. rewrite skipn_snoc by exact i_le0. apply Forall_app. split; [exact i_seg0|]. repeat constructor; discriminate.
    - intros P X. apply seg_snoc_in in X as [X|[X _]]; [exact (i_comma0 P X)|discriminate|left; exact i_le0].
    - intros A P X. assert (PE : pre = []) by (destruct pre; [reflexivity|discriminate]). subst pre.
      simpl in i_le0. assert (e_start st = 0) by lia. rewrite H in X. simpl in X. exact X.
    - intros A. exists pre, []. split; [reflexivity|]. split; [reflexivity|]. split; [intro P; split; [lia|apply i_at1; assumption]|].
      split; [intros []|apply ndd_nil]. }
  assert (BN : e_bracket st = true -> pre <> []).
  { intros B ->. destruct I. apply i_bracket0 in B as (p & X). discriminate. }
  assert (BN2 : pre = [] -> e_bracket st = false).
  { intros ->. destruct (e_bracket st) eqn:B; [|reflexivity]. destruct (BN eq_refl eq_refl). }
  destruct (N.eqb_spec c c_dot) as [->|ND].
  { destruct ((negb (Nat.eqb (e_at st) 0) && N.eqb (e_last st) c_dot) || N.eqb (e_last st) c_at) eqn:D; [discriminate|].
    injection E as <-. apply orb_false_iff in D as [D1 D2]. apply inv_plain; auto.
    - repeat split; discriminate.
    - intros _. apply N.eqb_neq in D2. split; [|exact D2]. intros A X. apply Nat.eqb_neq in A. rewrite A, X in D1. discriminate. }
  destruct (is_ws_ascii c || negb (N.ltb c 128)) eqn:W; [discriminate|]. injection E as <-.
  apply orb_false_iff in W as [W1 W2]. apply negb_false_iff in W2. apply N.ltb_lt in W2.
  apply inv_plain; auto; repeat split; try assumption; congruence.
Qed.

(** The state after the whole address has been read: the '>' if any was last. *)
Lemma env_go_inv : forall s pre st len st', len = length (pre ++ s) ->
  env_inv len pre st -> env_go len (length pre) s st = EGo st' ->
  env_inv len (pre ++ s) st' \/
  (exists body stb, pre ++ s = body ++ [62%N] /\ env_inv len body stb /\ e_bracket stb = true /\ 2 < len /\
     st' = {| e_start := e_start stb; e_end := length body; e_last := 62%N; e_at := e_at stb; e_bracket := false; e_path := e_path stb |}).
Proof.
  induction s as [|c s IH]; intros pre st len st' LN I E; cbn [env_go] in E.
  - injection E as <-. left. rewrite app_nil_r. exact I.
  - destruct (env_step len (length pre) c st) as [| |st1] eqn:ES; try discriminate.
    destruct (N.eqb_spec c 62) as [->|NG].
    + right. unfold env_step in ES. cbn [N.eqb] in ES. change (N.eqb 62 60) with false in ES. change (N.eqb 62 62) with true in ES.
      cbv iota in ES. destruct (e_bracket st) eqn:B; [|discriminate]. cbn [andb] in ES.
      destruct (Nat.eqb_spec (length pre) (len - 1)) as [PE|PE]; [|discriminate].
      destruct (Nat.ltb 2 len) eqn:L2; [|discriminate]. apply Nat.ltb_lt in L2. injection ES as <-.
      assert (s = []). { rewrite app_length in LN. simpl in LN. destruct s; [reflexivity|simpl in LN; lia]. } subst s.
      simpl in E. injection E as <-. exists pre, st. auto 6.
    + rewrite app_length in LN. simpl in LN.
      assert (I1 := env_step_inv len pre c st st1 I ltac:(lia) ES NG).
      specialize (IH (pre ++ [c]) st1 len st'). rewrite <- app_assoc in IH. cbn [app] in IH.
      apply IH; [rewrite ?app_length; simpl; lia|exact I1|rewrite ?app_length; exact E].
Qed.

Lemma env_inv_init (addr : list N) : env_inv (length addr) []
  {| e_start := 0; e_end := length addr; e_last := 0; e_at := 0; e_bracket := false; e_path := false |}.
Proof.
  constructor; cbn; auto; try discriminate.
  - intros p c E. destruct p; discriminate.
  - split; [discriminate|intros (p & X); discriminate].
  - intro H. congruence.
Qed.

(** From the invariant and the final tests to the mailbox. *)
Lemma inv_mailbox len body st : env_inv len body st ->
  e_path st = false -> e_start st < e_at st -> e_at st < length body - 1 ->
  mailbox (seg (e_start st) body) /\
  (forall x body', body = x :: body' -> x <> c_at ->
     exists local domain, seg (e_start st) body = local ++ c_at :: domain /\ ~ In c_at local).
Proof.
  intros I P S E. destruct I. destruct (i_at2 ltac:(lia)) as (a & b & EB & LN & SA & NB & ND).
  destruct (SA P) as [S1 S2].
  assert (SG : seg (e_start st) body = seg (e_start st) a ++ c_at :: b) by (rewrite EB; apply seg_app_le; lia).
  split.
  - split.
    + apply Forall_forall. intros x X. rewrite Forall_forall in i_seg0. destruct (i_seg0 x X) as (A1 & A2 & A3 & A4 & A5).
      repeat split; try assumption. intros ->. exact (i_comma0 P X).
    + exists (seg (e_start st) a), b. split; [|split; [|auto]].
      * intro X. assert (Y := f_equal (@length _) X). unfold seg in Y. rewrite skipn_length in Y. simpl in Y. lia.
      * intros ->. rewrite EB, app_length in E. simpl in E. lia.
  - intros x body' EX NX. exists (seg (e_start st) a), b. split; [exact SG|].
    destruct (e_start st) as [|k] eqn:K.
    + intro X. unfold seg in X. simpl in X, S2. destruct a as [|y a]; [contradiction|]. simpl in S2.
      rewrite EX in EB. simpl in EB. injection EB as -> _. destruct X as [X|X]; [congruence|exact (S2 X)].
    + replace (Nat.max 1 (Datatypes.S k)) with (Datatypes.S k) in S2 by lia. exact S2.
Qed.

Lemma slice_all s start : slice start (length s) s = seg start s.
Proof. unfold slice, seg. apply firstn_all2. rewrite skipn_length. lia. Qed.
Lemma slice_snoc body c start : start <= length body -> slice start (length body) (body ++ [c]) = seg start body.
Proof.
  intro H. unfold slice, seg. rewrite skipn_snoc by exact H. rewrite firstn_app.
  rewrite skipn_length. replace (length body - start - (length body - start)) with 0 by lia. simpl. rewrite app_nil_r.
  apply firstn_all2. rewrite skipn_length. lia.
Qed.

Lemma sits_of len body st : env_inv len body st -> e_bracket st = false \/ True ->
  (e_start st = 0 /\ body = seg (e_start st) body) \/
  (e_start st = 1 /\ body = 60%N :: seg (e_start st) body) \/
  (exists route, body = route ++ 58%N :: seg (e_start st) body).
Proof.
  intros I _. destruct I. destruct i_start0 as [S|[[S (p & ->)]|(route & S)]].
  - left. split; [exact S|]. rewrite S. reflexivity.
  - right. left. split; [exact S|]. rewrite S. reflexivity.
  - right. right. exists route. unfold seg. rewrite <- (firstn_skipn (e_start st) body) at 1. rewrite S, <- app_assoc. reflexivity.
Qed.

Lemma daemon_chars r : teqb_ic r (lit "mailer-daemon") = true -> ~ In 60%N r /\ ~ In 58%N r.
Proof.
  intro H. apply teqb_ic_spec in H.
  assert (G : forall c, lower_ascii c = c -> In c r -> In c (lower_text (lit "mailer-daemon"))).
  { intros c L I. rewrite <- H. unfold lower_text. rewrite <- L. apply in_map, I. }
  split; intro I; apply G in I; try reflexivity; vm_compute in I; intuition discriminate.
Qed.

Lemma envelope_exact addr r : parse_envelope_address addr = Some r ->
  (r = [] /\ (addr = [] \/ addr = [60; 62]%N)) \/
  (teqb_ic r (lit "mailer-daemon") = true) \/
  (mailbox r /\ sits addr r /\
   (forall x rest, addr = x :: rest -> x <> c_at ->
      exists local domain, r = local ++ c_at :: domain /\ ~ In c_at local)).
Proof.
  intro E. unfold parse_envelope_address in E. destruct addr as [|a0 addr0] eqn:EA; [injection E as <-; left; auto|].
  rewrite <- EA in *. clear EA. destruct (env_go _ _ _ _) as [| |st] eqn:EG; [discriminate| |].
  - injection E as <-. left. split; [reflexivity|]. right.
    (* only "<>" leads here *)
    assert (G : forall s pre st len, len = length (pre ++ s) -> env_inv len pre st ->
      env_go len (length pre) s st = ENull -> pre ++ s = [60; 62]%N).
    { clear. induction s as [|c s IH]; intros pre st len LN I E; cbn [env_go] in E; [discriminate|].
      destruct (env_step len (length pre) c st) as [| |st1] eqn:ES; try discriminate.
      - unfold env_step in ES.
        destruct (N.eqb c 60); [destruct (Nat.eqb _ 0); discriminate|].
        destruct (N.eqb_spec c 62) as [->|NG].
        + destruct (e_bracket st) eqn:B; [|discriminate]. cbn [andb] in ES.
          destruct (Nat.eqb_spec (length pre) (len - 1)) as [PE|PE]; [|discriminate].
          destruct (Nat.ltb 2 len) eqn:L2; [discriminate|]. apply Nat.ltb_ge in L2.
          destruct I. apply i_bracket0 in B as (p & ->). rewrite app_length in LN. simpl in *.
          destruct p; [|simpl in *; lia]. destruct s; [reflexivity|simpl in *; lia].
        + destruct (N.eqb c 58); [destruct (negb _); discriminate|].
          destruct (N.eqb c 44); [destruct (negb _); discriminate|].
          destruct (N.eqb c c_at); [destruct (_ && _); discriminate|].
          destruct (N.eqb c c_dot); [destruct (_ || _); discriminate|].
          destruct (_ || _); discriminate.
      - destruct (N.eqb_spec c 62) as [->|NG].
        + assert (e_bracket st1 = false /\ length pre = len - 1) as [_ PE].
          { unfold env_step in ES. change (N.eqb 62 60) with false in ES. change (N.eqb 62 62) with true in ES. cbv iota in ES.
            destruct (e_bracket st); [|discriminate]. cbn [andb] in ES.
            destruct (Nat.eqb_spec (length pre) (len - 1)) as [PE|PE]; [|discriminate].
            destruct (Nat.ltb 2 len); [|discriminate]. injection ES as <-. auto. }
          rewrite app_length in LN. simpl in LN. destruct s; [discriminate|simpl in LN; lia].
        + rewrite app_length in LN. simpl in LN.
          assert (I1 := env_step_inv len pre c st st1 I ltac:(lia) ES NG).
          specialize (IH (pre ++ [c]) st1 len). rewrite <- app_assoc in IH. cbn [app] in IH.
          apply IH; [rewrite ?app_length; simpl; lia|exact I1|rewrite ?app_length; exact E]. }
    exact (G addr [] _ _ eq_refl (env_inv_init addr) EG).
  - right. cbv zeta in E.
    destruct (negb (e_bracket st) && negb (e_path st) && Nat.ltb (e_start st) (e_at st) && Nat.ltb (e_at st) (e_end st - 1)) eqn:C.
    + right. injection E as <-.
      apply andb_true_iff in C as [C C4]. apply andb_true_iff in C as [C C3]. apply andb_true_iff in C as [C1 C2].
      apply Nat.ltb_lt in C3, C4. apply negb_true_iff in C1, C2.
      destruct (env_go_inv addr [] _ _ st eq_refl (env_inv_init addr) EG) as [I|(body & stb & EB & I & B & L2 & ->)]; cbn [app] in *.
      * assert (EE : e_end st = length addr) by (destruct I; assumption). rewrite EE in C4 |- *. rewrite slice_all.
        destruct (inv_mailbox _ _ _ I C2 C3 C4) as [MB OA]. split; [exact MB|]. split; [|exact OA].
        destruct (sits_of _ _ _ I (or_intror Logic.I)) as [[_ S]|[[S1 S]|(route & S)]].
        -- apply sit_plain. exact S.
        -- exfalso. destruct I. assert (e_bracket st = true) by (apply i_bracket0; eauto). congruence.
        -- eapply sit_route. exact S.
      * cbn [e_start e_end e_at e_bracket e_path] in *. rewrite EB, slice_snoc by (destruct I; assumption).
        destruct (inv_mailbox _ _ _ I C2 C3 C4) as [MB OA]. split; [exact MB|].
        assert (BB : exists p, body = 60%N :: p) by (destruct I; apply i_bracket0; exact B). destruct BB as (p & BP).
        split.
        -- destruct (sits_of _ _ _ I (or_intror Logic.I)) as [[S1 S]|[[S1 S]|(route & S)]].
           ++ exfalso. destruct I. specialize (i_open0 B). lia.
           ++ apply sit_angle. rewrite S at 1. reflexivity.
           ++ rewrite BP in S at 1. destruct route as [|x route]; [discriminate|]. injection S as <- S.
              apply sit_angle_route with route. rewrite BP at 1. rewrite S at 1. cbn [app]. rewrite <- app_assoc. reflexivity.
        -- intros x rest EX NX. subst body. cbn [app] in EX. apply (OA 60%N p eq_refl). discriminate.
    + left. destruct (Nat.leb _ _ && Nat.eqb _ 0 && teqb_ic _ _) eqn:D; [|discriminate]. injection E as <-.
      apply andb_true_iff in D as [_ D]. exact D.
Qed.

(** *** completeness: well-formed mailboxes are accepted *)
Fixpoint dots_ok (a : bool) (last : N) (s : list N) : Prop :=
  match s with
  | [] => True
  | c :: s' => (c = c_dot -> (a = true -> last <> c_dot) /\ last <> c_at) /\ dots_ok a c s'
  end.
Lemma env_chars len : forall s pos t st, Forall path_char s -> ~ In c_at s ->
  dots_ok (negb (Nat.eqb (e_at st) 0)) (e_last st) s ->
  exists l, env_go len pos (s ++ t) st = env_go len (pos + length s) t
    {| e_start := e_start st; e_end := e_end st; e_last := l; e_at := e_at st; e_bracket := e_bracket st; e_path := e_path st |}.
Proof.
  induction s as [|c s IH]; intros pos t st F NA D.
  - exists (e_last st). cbn [app length]. rewrite Nat.add_0_r. destruct st; reflexivity.
  - inversion F as [|? ? (P1 & P2 & P3 & P4 & P5 & P6) F']; subst. cbn [app env_go].
    assert (NA' : c <> c_at) by (intro X; apply NA; left; exact X).
    assert (ES : env_step len pos c st = EGo {| e_start := e_start st; e_end := e_end st; e_last := c; e_at := e_at st; e_bracket := e_bracket st; e_path := e_path st |}).
    { unfold env_step. apply N.eqb_neq in P3, P4, P5, P6, NA'. rewrite P3, P4, P5, P6, NA'. cbn [dots_ok] in D. destruct D as [D _].
      destruct (N.eqb_spec c c_dot) as [->|ND].
      - destruct (D eq_refl) as [D1 D2]. apply N.eqb_neq in D2. rewrite D2, orb_false_r.
        destruct (negb (Nat.eqb (e_at st) 0)); [|reflexivity]. specialize (D1 eq_refl). apply N.eqb_neq in D1. rewrite D1. reflexivity.
      - rewrite P2. apply N.ltb_lt in P1. rewrite P1. reflexivity. }
    rewrite ES. destruct D as [_ D].
    destruct (IH (pos + 1) t {| e_start := e_start st; e_end := e_end st; e_last := c; e_at := e_at st; e_bracket := e_bracket st; e_path := e_path st |} F') as (l & E).
    + intro X. apply NA. right. exact X.
    + exact D.
    + exists l. rewrite E. cbn [e_start e_end e_at e_bracket e_path]. replace (pos + length (c :: s)) with (pos + 1 + length s) by (simpl; lia).
      reflexivity.
Qed.
Lemma dots_ok_local : forall s last, last <> c_at -> ~ In c_at s -> dots_ok false last s.
Proof.
  induction s as [|c s IH]; intros last NL NA; cbn [dots_ok]; [exact I|]. split; [intros _; split; [discriminate|exact NL]|].
  apply IH; [intro X; apply NA; left; exact X|intro X; apply NA; right; exact X].
Qed.
Lemma dots_ok_domain : forall s last, ~ In c_at s -> no_double_dot s -> (forall s', s = c_dot :: s' -> last <> c_dot /\ last <> c_at) -> dots_ok true last s.
Proof.
  induction s as [|c s IH]; intros last NA [D1 D2] H; cbn [dots_ok]; [exact I|]. split.
  - intros ->. exfalso. exact (D1 s eq_refl).
  - assert (G : forall s last, ~ In c_at s -> (forall a b, s <> a ++ c_dot :: c_dot :: b) ->
       (forall s', s = c_dot :: s' -> last <> c_dot /\ last <> c_at) -> dots_ok true last s).
    { clear. induction s as [|c s IH]; intros last NA D2 H; cbn [dots_ok]; [exact I|]. split.
      - intros ->. destruct (H s eq_refl). auto.
      - apply IH.
        + intro X. apply NA. right. exact X.
        + intros a b E. apply (D2 (c :: a) b). rewrite E. reflexivity.
        + intros s' ->. split; [intros ->; exact (D2 [] s' eq_refl)|intros ->; apply NA; left; reflexivity]. }
    apply G.
    + intro X. apply NA. right. exact X.
    + intros a b E. apply (D2 (c :: a) b). rewrite E. reflexivity.
    + intros s' ->. split; [intros ->; exact (D2 [] s' eq_refl)|intros ->; apply NA; left; reflexivity].
Qed.

Lemma env_mailbox len pos (local domain t : list N) st :
  Forall path_char (local ++ c_at :: domain) -> local <> [] -> domain <> [] -> ~ In c_at local -> ~ In c_at domain ->
  no_double_dot domain -> e_at st = 0 -> e_last st <> c_at -> pos + length local + 1 < len ->
  exists l, env_go len pos ((local ++ c_at :: domain) ++ t) st =
    env_go len (pos + length (local ++ c_at :: domain)) t
    {| e_start := e_start st; e_end := e_end st; e_last := l; e_at := pos + length local; e_bracket := e_bracket st; e_path := e_path st |}.
Proof.
  intros F NE1 NE2 NL ND DD A L LEN. apply Forall_app in F as [F1 F2]. inversion F2 as [|? ? _ F3]; subst.
  rewrite <- app_assoc. destruct (env_chars len local pos ((c_at :: domain) ++ t) st F1 NL) as (l1 & E0).
  { rewrite A. apply dots_ok_local; assumption. }
  unfold ch in *. rewrite E0; clear E0.
  cbn [app env_go].
  assert (ES : env_step len (pos + length local) c_at
     {| e_start := e_start st; e_end := e_end st; e_last := l1; e_at := e_at st; e_bracket := e_bracket st; e_path := e_path st |} =
     EGo {| e_start := e_start st; e_end := e_end st; e_last := c_at; e_at := pos + length local; e_bracket := e_bracket st; e_path := e_path st |}).
  { unfold env_step. cbn [e_start e_end e_last e_at e_bracket e_path]. change (N.eqb c_at 60) with false. change (N.eqb c_at 62) with false.
    change (N.eqb c_at 58) with false. change (N.eqb c_at 44) with false. change (N.eqb c_at c_at) with true. cbv iota.
    rewrite A. destruct (Nat.eqb_spec (pos + length local) (len - 1)) as [X|X]; [lia|reflexivity]. }
  rewrite ES.
  destruct (env_chars len domain (pos + length local + 1) t
     {| e_start := e_start st; e_end := e_end st; e_last := c_at; e_at := pos + length local; e_bracket := e_bracket st; e_path := e_path st |} F3 ND) as (l2 & ->).
  { cbn [e_at e_last]. destruct (Nat.eqb_spec (pos + length local) 0) as [X|X].
    - destruct local; [congruence|simpl in X; lia].
    - cbn [negb]. apply dots_ok_domain; try assumption. intros s' ->. exfalso. destruct DD as [DD _]. exact (DD s' eq_refl). }
  exists l2. cbn [e_start e_end e_at e_bracket e_path]. rewrite app_length. simpl length.
  replace (pos + length local + 1 + length domain) with (pos + (length local + S (length domain))) by lia. reflexivity.
Qed.

Lemma envelope_complete (local domain : list N) :
  Forall path_char (local ++ c_at :: domain) -> local <> [] -> domain <> [] -> ~ In c_at local -> ~ In c_at domain ->
  no_double_dot domain ->
  parse_envelope_address (local ++ c_at :: domain) = Some (local ++ c_at :: domain) /\
  parse_envelope_address (60%N :: (local ++ c_at :: domain) ++ [62%N]) = Some (local ++ c_at :: domain).
Proof.
  intros F NE1 NE2 NL ND DD. set (r := local ++ c_at :: domain) in *.
  assert (LR : length r = length local + 1 + length domain) by (unfold r; rewrite app_length; simpl; lia).
  assert (L1 : 0 < length local) by (destruct local; [congruence|simpl; lia]).
  assert (L2 : 0 < length domain) by (destruct domain; [congruence|simpl; lia]).
  split; unfold parse_envelope_address.
  - assert (E0 : match r with [] => Some [] | _ => match env_go (length r) 0 r
              {| e_start := 0; e_end := length r; e_last := 0; e_at := 0; e_bracket := false; e_path := false |} with
      | EReject => None
      | ENull => Some []
      | EGo st =>
          let r' := slice (e_start st) (e_end st) r in
          if negb (e_bracket st) && negb (e_path st) && Nat.ltb (e_start st) (e_at st) && Nat.ltb (e_at st) (e_end st - 1)
          then Some r'
          else if Nat.leb (e_start st) (e_end st) && Nat.eqb (e_at st) 0 && teqb_ic r' (lit "mailer-daemon")
            then Some r' else None end end = Some r); [|exact E0].
    assert (NR : r <> []) by (intro X; rewrite X in LR; simpl in LR; lia).
    destruct (env_mailbox (length r) 0 local domain []
      {| e_start := 0; e_end := length r; e_last := 0; e_at := 0; e_bracket := false; e_path := false |} F NE1 NE2 NL ND DD eq_refl) as (l & E).
    { discriminate. } { lia. }
    fold r in E. rewrite (app_nil_r r) in E. rewrite E. destruct r eqn:ER; [congruence|]. rewrite <- ER in *.
    cbn [env_go e_start e_end e_at e_bracket e_path]. cbv zeta.
    cbn [negb andb plus]. destruct (Nat.ltb_spec 0 (length local)); [|lia]. destruct (Nat.ltb_spec (length local) (length r - 1)); [|lia].
    cbn [andb]. rewrite slice_all. reflexivity.
  - set (len := length (60%N :: r ++ [62%N])). assert (LL : len = length r + 2) by (unfold len; simpl; rewrite app_length; simpl; lia).
    cbn [env_go]. 
    assert (E1 : env_step len 0 60 {| e_start := 0; e_end := len; e_last := 0; e_at := 0; e_bracket := false; e_path := false |} =
      EGo {| e_start := 1; e_end := len; e_last := 60; e_at := 0; e_bracket := true; e_path := false |}) by reflexivity.
    rewrite E1.
    destruct (env_mailbox len 1 local domain [62%N]
      {| e_start := 1; e_end := len; e_last := 60; e_at := 0; e_bracket := true; e_path := false |} F NE1 NE2 NL ND DD eq_refl) as (l & E).
    { discriminate. } { lia. }
    fold r in E. change (0 + 1) with 1. rewrite E. cbn [env_go e_start e_end e_at e_bracket e_path].
    unfold env_step. change (N.eqb 62 60) with false. change (N.eqb 62 62) with true. cbv iota. cbn [e_start e_end e_at e_bracket e_path].
    destruct (Nat.eqb_spec (1 + length r) (len - 1)); [|lia]. destruct (Nat.ltb_spec 2 len); [|lia]. cbn [andb negb e_start e_end e_at e_bracket e_path].
    destruct (Nat.ltb_spec 1 (1 + length local)); [|lia]. destruct (Nat.ltb_spec (1 + length local) (1 + length r - 1)); [|lia].
    cbn [andb]. change (60%N :: r ++ [62%N]) with ((60%N :: r) ++ [62%N]).
    replace (1 + length r) with (length (60%N :: r)) by reflexivity. rewrite slice_snoc by (simpl; lia). reflexivity.
Qed.

Lemma sanitize_unquoted addr r : ~ In c_dquote addr -> sanitize_address addr = Some r ->
    Forall (fun c => is_ws_ascii c = false) r /\
    exists local domain, r = local ++ c_at :: domain /\ local <> [] /\ ~ In c_at local /\ ~ In c_at domain.
Proof.
  intros NQ E. destruct (sanitize_ok _ _ E) as (_ & l0 & d1 & d2 & NE & E0).
  destruct (sanitize_go_plain addr [] c_lf false false r NQ (Forall_nil _)) as [F (l & d & E1 & A & B)];
    [intros []|exact E|]. split; [exact F|]. exists l, d. repeat split; try assumption.
  intros ->. cbn [app] in E1. rewrite E0 in E1. destruct l0 as [|x l0]; [congruence|]. cbn [app] in E1. injection E1 as _ <-.
  apply B. apply in_or_app. right. left. reflexivity.
Qed.
Lemma set_envelope_ok env e v :
    (set_envelope env e v = env \/ exists a, set_envelope env e v = env ++ [(e, a)]) /\
    (e <> EnvFrom -> e <> EnvTo -> set_envelope env e v = env ++ [(e, v)]) /\
    (forall e' a, (e' = EnvFrom \/ e' = EnvTo) -> In (e', a) (set_envelope env e v) ->
       In (e', a) env \/ a = [] \/ teqb_ic a (lit "mailer-daemon") = true \/ mailbox a).
Proof.
  split.
  { destruct e; cbn [set_envelope]; try (right; eexists; reflexivity);
      (destruct (parse_envelope_address v); [right; eexists; reflexivity|left; reflexivity]). }
  split; [intros N1 N2; destruct e; (congruence || reflexivity)|]. intros e' a HE I.
  assert (P : forall r, parse_envelope_address v = Some r -> r = [] \/ teqb_ic r (lit "mailer-daemon") = true \/ mailbox r).
  { intros r E. apply envelope_exact in E as [[E _]|[E|[E _]]]; auto. }
  destruct e; cbn [set_envelope] in I;
    try (apply in_app_or in I as [I|[I|[]]]; [left; exact I|injection I as <- <-; destruct HE; discriminate]);
    (destruct (parse_envelope_address v) as [r|] eqn:E; [|left; exact I];
     apply in_app_or in I as [I|[I|[]]]; [left; exact I|injection I as <- <-; right; apply P; reflexivity]).
Qed.
Lemma display_name_quoted name address :
    (name = [] -> user_from_field (escape_name name) address = address) /\
    (name <> [] ->
     exists q, user_from_field (escape_name name) address = c_dquote :: q /\
       quoted q name (lit " <" ++ address ++ lit ">") /\
       (forall t rest, quoted q t rest -> t = name /\ rest = lit " <" ++ address ++ lit ">")).
Proof.
  split; [intros ->; reflexivity|]. intro NE. exists (escape_name name ++ c_dquote :: (lit " <" ++ address ++ lit ">")).
  assert (Q := escape_quoted name (lit " <" ++ address ++ lit ">")). split; [|split; [exact Q|]].
  - unfold user_from_field. destruct (escape_name name) eqn:E; [|reflexivity].
    destruct name as [|c name]; [congruence|]. unfold escape_name in E. cbn [flat_map] in E.
    destruct (N.eqb c c_dquote || N.eqb c c_bslash); discriminate.
  - intros t rest Q'. destruct (quoted_functional _ _ _ Q _ _ Q') as [-> ->]. split; reflexivity.
Qed.
