(** Proofs about the substitution of references in strings. *)
From Verif Require Import Base Lib Var Value Utf8 Lexer Scope StringTok StringSpec.

(** ** UTF-8 *)
Lemma lossy_ascii : forall a b, Forall (fun c => (c < 128)%N) a -> utf8_lossy (a ++ b) = a ++ utf8_lossy b.
Proof.
  unfold utf8_lossy. induction a as [|c a IH]; intros b F; [reflexivity|]. inversion F as [|? ? C F']; subst.
  cbn [app utf8_dec map]. rewrite (proj2 (N.ltb_lt _ _) C). cbn [map]. rewrite (IH b F'). reflexivity.
Qed.

Lemma into_lossy bs : into_string bs = utf8_lossy bs.
Proof.
  unfold into_string. destruct (utf8_strict bs) as [t|] eqn:E; [|reflexivity].
  unfold utf8_strict in E. apply all_some_inv in E. unfold utf8_lossy. rewrite E, map_map. symmetry. apply List.map_id.
Qed.

(** ** Spans *)
Lemma span_app p : forall s a b, span p s = (a, b) -> s = a ++ b.
Proof.
  induction s as [|c r IH]; intros a b H; cbn in H; [injection H as <- <-; reflexivity|].
  destruct (p c); [|injection H as <- <-; reflexivity].
  destruct (span p r) as [x y]. injection H as <- <-. cbn. f_equal. apply IH. reflexivity.
Qed.
Lemma span_all p : forall s a b, span p s = (a, b) -> Forall (fun c => p c = true) a.
Proof.
  induction s as [|c r IH]; intros a b H; cbn in H; [injection H as <- <-; constructor|].
  destruct (p c) eqn:E; [|injection H as <- <-; constructor].
  destruct (span p r) as [x y]. injection H as <- <-. constructor; [exact E|]. eapply IH. reflexivity.
Qed.
Lemma span_end p : forall s a c b, span p s = (a, c :: b) -> p c = false.
Proof.
  induction s as [|d r IH]; intros a c b H; cbn in H; [discriminate|].
  destruct (p d) eqn:E; [|injection H as <- <- <-; exact E].
  destruct (span p r) as [x y] eqn:F. injection H as <- ->. eapply IH. reflexivity.
Qed.
Lemma span_intro p : forall a b, Forall (fun c => p c = true) a ->
  (match b with [] => True | c :: _ => p c = false end) -> span p (a ++ b) = (a, b).
Proof.
  induction a as [|c a IH]; intros b F H; cbn [app span].
  - destruct b as [|d b]; [reflexivity|]. cbn. rewrite H. reflexivity.
  - inversion F as [|? ? C F']; subst. rewrite C, (IH b F' H). reflexivity.
Qed.

Lemma nspan_app : forall s ns a b, name_span ns s = (a, b) -> s = a ++ b.
Proof.
  induction s as [|c r IH]; intros ns a b H; cbn in H; [injection H as <- <-; reflexivity|].
  destruct (name_char c || (N.eqb c 58 && ns)); [|injection H as <- <-; reflexivity].
  destruct (name_span (ns || N.eqb c 46) r) as [x y] eqn:E. injection H as <- <-. cbn. f_equal. eapply IH, E.
Qed.
Definition name_ok (c : N) : Prop := name_char c = true \/ c = 58%N.
Lemma name_ok_bounds c : name_ok c -> (c < 128)%N /\ c <> 36%N /\ c <> 125%N /\ c <> 123%N.
Proof. unfold name_ok, name_char, name_byte, is_alpha_ascii, is_upper_ascii, is_lower_ascii, is_digit_ascii, between. lia. Qed.
Lemma nspan_ok : forall s ns a b, name_span ns s = (a, b) -> Forall name_ok a.
Proof.
  induction s as [|c r IH]; intros ns a b H; cbn in H; [injection H as <- <-; constructor|].
  destruct (name_char c || (N.eqb c 58 && ns)) eqn:E; [|injection H as <- <-; constructor].
  destruct (name_span (ns || N.eqb c 46) r) as [x y] eqn:F. injection H as <- <-. constructor; [|eapply IH, F].
  unfold name_ok. destruct (name_char c); [left; reflexivity|]. right. lia.
Qed.
Lemma nspan_stop : forall s ns n x r, name_span ns s = (n, x :: r) ->
  name_char x || (N.eqb x 58 && (ns || has_dot n)) = false.
Proof.
  induction s as [|y s IHs]; intros ns n x r H; cbn [name_span] in H; [discriminate|].
  destruct (name_char y || (N.eqb y 58 && ns)) eqn:Ey.
  - destruct (name_span (ns || N.eqb y 46) s) as [u v] eqn:Fv. injection H as <- ->.
    apply IHs in Fv. cbn [has_dot existsb]. rewrite (N.eqb_sym 46 y), orb_assoc. exact Fv.
  - injection H as <- -> ->. rewrite orb_false_r. exact Ey.
Qed.
(** Adding a byte that is not of a name does not change the name. *)
Lemma nspan_more : forall s ns a b x, name_span ns s = (a, b) ->
  name_span ns (s ++ 36%N :: x) = (a, b ++ 36%N :: x).
Proof.
  induction s as [|c r IH]; intros ns a b x H; cbn in H.
  - injection H as <- <-. reflexivity.
  - cbn [app name_span]. destruct (name_char c || (N.eqb c 58 && ns)); [|injection H as <- <-; reflexivity].
    destruct (name_span (ns || N.eqb c 46) r) as [u v] eqn:F. injection H as <- <-.
    rewrite (IH _ _ _ x F). reflexivity.
Qed.
Lemma nspan_more_in : forall s ns a b x, name_span ns s = (a, 125%N :: b) ->
  name_span ns (s ++ x) = (a, 125%N :: b ++ x).
Proof.
  induction s as [|c r IH]; intros ns a b x H; cbn in H; [discriminate|].
  cbn [app name_span]. destruct (name_char c || (N.eqb c 58 && ns)) eqn:E.
  - destruct (name_span (ns || N.eqb c 46) r) as [u v] eqn:F. injection H as <- ->. rewrite (IH _ _ _ x F). reflexivity.
  - injection H as <- -> ->. reflexivity.
Qed.

(** ** Pieces *)
Lemma after_open_spec s r : after_open s = Some r <-> s = 36%N :: 123%N :: r.
Proof.
  unfold after_open. destruct s as [|a [|b s]]; try (split; discriminate).
  destruct (N.eqb_spec a 36) as [->|Na]; [|split; [discriminate|intro H; injection H; intros; congruence]].
  destruct (N.eqb_spec b 123) as [->|Nb]; cbn; split; intro H; inversion H; subst; try reflexivity; congruence.
Qed.
Lemma after_spec k s r : after k s = Some r <-> s = k :: r.
Proof.
  unfold after. destruct s as [|a s]; [split; discriminate|].
  destruct (N.eqb_spec a k) as [->|Na]; split; intro H; inversion H; subst; try reflexivity; congruence.
Qed.
Lemma after_not k c s : c <> k -> after k (c :: s) = None.
Proof. intro H. cbn. destruct (N.eqb_spec c k); [congruence|reflexivity]. Qed.

(** [s] does not begin with a reference. *)
Definition plain_at (s : list N) : Prop := after_open s = None.
Lemma plain_at_1 c r : c <> 36%N -> plain_at (c :: r).
Proof. intro H. unfold plain_at, after_open. destruct r; [reflexivity|]. destruct (N.eqb_spec c 36); [congruence|reflexivity]. Qed.

Lemma ref_at_spec s n r : ref_at s = Some (n, r) <->
  (s = 36%N :: 123%N :: n ++ 125%N :: r /\ n <> [] /\ name_span false (n ++ 125%N :: r) = (n, 125%N :: r)).
Proof.
  unfold ref_at. split.
  - destruct (after_open s) as [s1|] eqn:E; [|discriminate]. apply after_open_spec in E.
    destruct (name_span false s1) as [m q] eqn:F. pose proof (nspan_app _ _ _ _ F) as A.
    destruct m as [|c m]; [discriminate|]. destruct (after 125 q) as [q'|] eqn:G; [|discriminate].
    apply after_spec in G. intro H. injection H as <- <-. subst. repeat split; [discriminate|exact F].
  - intros (-> & Hn & F). cbn [after_open]. rewrite !N.eqb_refl. cbn [andb]. rewrite F. destruct n; [congruence|].
    cbn. reflexivity.
Qed.
Lemma ref_shorter s n r : ref_at s = Some (n, r) -> length r < length s.
Proof. intro H. apply ref_at_spec in H as (-> & _ & _). cbn. rewrite app_length. cbn. lia. Qed.

Lemma pieces_fuel : forall f g s, length s <= f -> length s <= g -> pieces_f f s = pieces_f g s.
Proof.
  induction f as [|f IH]; intros g s Hf Hg.
  - destruct s; [destruct g; reflexivity|cbn in Hf; lia].
  - destruct s as [|c r]; [destruct g; reflexivity|]. destruct g as [|g]; [cbn in Hg; lia|].
    cbn [pieces_f length] in *. destruct (ref_at (c :: r)) as [[n q]|] eqn:E.
    + apply ref_shorter in E. cbn in E. f_equal. apply IH; lia.
    + f_equal. apply IH; lia.
Qed.
Lemma pieces_cons c r : pieces (c :: r) =
  match ref_at (c :: r) with Some (n, q) => SRef n :: pieces q | None => SByte c :: pieces r end.
Proof.
  unfold pieces at 1. cbn [length pieces_f]. destruct (ref_at (c :: r)) as [[n q]|] eqn:E; f_equal.
  apply ref_shorter in E. cbn in E. apply pieces_fuel; lia.
Qed.
Lemma ref_plain s : plain_at s -> ref_at s = None.
Proof. unfold plain_at, ref_at. intros ->. reflexivity. Qed.
Lemma pieces_byte c r : plain_at (c :: r) -> pieces (c :: r) = SByte c :: pieces r.
Proof. intro H. rewrite pieces_cons, (ref_plain _ H). reflexivity. Qed.
Lemma pieces_plain : forall w s, Forall (fun c => c <> 36%N) w -> pieces (w ++ s) = map SByte w ++ pieces s.
Proof.
  induction w as [|c w IH]; intros s F; [reflexivity|]. inversion F; subst. cbn [app map].
  rewrite pieces_byte by (apply plain_at_1; assumption). f_equal. apply IH. assumption.
Qed.
Lemma pieces_ref n s : n <> [] -> name_span false (n ++ 125%N :: s) = (n, 125%N :: s) ->
  pieces (opened n ++ 125%N :: s) = SRef n :: pieces s.
Proof.
  intros Hn F. unfold opened. cbn [app]. rewrite pieces_cons.
  rewrite (proj2 (ref_at_spec _ n s)) by (split; [reflexivity|split; assumption]). reflexivity.
Qed.

(** A reference ends the pieces before it. *)
Lemma ref_at_more s n r x : ref_at s = Some (n, r) -> ref_at (s ++ x) = Some (n, r ++ x).
Proof.
  intro H. apply ref_at_spec in H as (-> & Hn & F). apply ref_at_spec. split; [cbn; rewrite <- app_assoc; reflexivity|].
  split; [exact Hn|]. apply (nspan_more_in _ _ _ _ x) in F. rewrite <- app_assoc in F. exact F.
Qed.
Lemma ref_at_none s x : s <> [] -> ref_at s = None -> ref_at (s ++ 36%N :: x) = None.
Proof.
  intros Hs H. unfold ref_at in *. destruct (after_open s) as [s1|] eqn:E.
  - apply after_open_spec in E. subst s. cbn [app after_open]. rewrite !N.eqb_refl. cbn [andb].
    destruct (name_span false s1) as [m q] eqn:F. rewrite (nspan_more _ _ _ _ x F).
    destruct m; [reflexivity|]. destruct q as [|d q]; [reflexivity|]. cbn [after app] in *.
    destruct (N.eqb d 125); [discriminate|reflexivity].
  - destruct s as [|a [|b s]]; [congruence| |].
    + cbn. destruct (N.eqb a 36); reflexivity.
    + cbn [app after_open] in *. destruct (N.eqb a 36 && N.eqb b 123); [discriminate|reflexivity].
Qed.
Lemma pieces_app : forall f s x, length s <= f ->
  pieces (s ++ 36%N :: x) = pieces s ++ pieces (36%N :: x).
Proof.
  induction f as [|f IH]; intros s x H.
  - destruct s; [reflexivity|cbn in H; lia].
  - destruct s as [|c r]; [reflexivity|]. cbn [app]. rewrite (pieces_cons c r), (pieces_cons c (r ++ _)).
    destruct (ref_at (c :: r)) as [[n q]|] eqn:E.
    + rewrite app_comm_cons, (ref_at_more _ _ _ (36%N :: x) E). cbn [app]. f_equal. apply ref_shorter in E.
      cbn in E, H. apply IH. lia.
    + rewrite app_comm_cons, (ref_at_none _ x) by (try exact E; discriminate). cbn [app]. f_equal. apply IH. cbn in H. lia.
Qed.

(** ** Rendering *)
Section Render.
  Variables (L : rustlib) (resolve : list N -> bool -> bool -> vres) (c : vctx).
  Notation render := (render L resolve c).
  Notation ref_text := (ref_text L resolve c).

  Lemma cat_assoc a b d : cat a (cat b d) = cat (cat a b) d.
  Proof. destruct a, b, d; cbn; try reflexivity. rewrite app_assoc. reflexivity. Qed.
  Lemma render_bytes : forall w acc ps, render acc (map SByte w ++ ps) = render (acc ++ w) ps.
  Proof.
    induction w as [|x w IH]; intros acc ps; [rewrite app_nil_r; reflexivity|].
    cbn [map app StringSpec.render]. rewrite IH, <- app_assoc. reflexivity.
  Qed.
  Lemma render_ref : forall ps acc n qs,
    render acc (ps ++ SRef n :: qs) = cat (render acc ps) (cat (ref_text n) (render [] qs)).
  Proof.
    induction ps as [|[x|m] ps IH]; intros acc n qs; cbn [app StringSpec.render].
    - reflexivity.
    - apply IH.
    - rewrite IH, !cat_assoc. reflexivity.
  Qed.
  Lemma render_ascii : forall ps a acc, Forall (fun c => (c < 128)%N) a ->
    render (a ++ acc) ps = cat (Some a) (render acc ps).
  Proof.
    induction ps as [|[x|m] ps IH]; intros a acc F; cbn [StringSpec.render].
    - cbn. rewrite lossy_ascii by exact F. reflexivity.
    - rewrite <- app_assoc. apply IH, F.
    - rewrite (lossy_ascii _ _ F), cat_assoc. cbn. destruct (ref_text m), (render [] ps); cbn; try reflexivity.
      rewrite !app_assoc. reflexivity.
  Qed.
End Render.

(** ** The loop *)
Definition flat (x : value) : Prop := match x with XList _ | XRegex _ => False | _ => True end.

Section Loop.
  Variables (L : rustlib) (resolve : list N -> bool -> bool -> vres) (c : vctx).
  Notation ref_text := (ref_text L resolve c).
  Definition outs (l : list value) : text := flat_map (piece L c) l.
  (** The loop, started with [items], ends with items that add the text [m]. *)
  Definition adds (o : option (list value)) (items : list value) (m : option text) : Prop :=
    match o, m with
    | Some l, Some t => Forall flat l /\ outs l = outs items ++ t
    | None, None => True
    | _, _ => False
    end.
  Lemma adds_base o items t m : forall items', outs items' = outs items ++ t ->
    adds o items' m -> adds o items (cat (Some t) m).
  Proof.
    intros items' H A. unfold adds in *. destruct o as [l|], m as [x|]; cbn; try contradiction; [|exact Logic.I].
    destruct A as [F E]. split; [exact F|]. rewrite E, H, <- app_assoc. reflexivity.
  Qed.

  Variables (pd : bool) (add : list N -> bool -> bool -> option (list value)).
  Variable amean : list N -> option text.
  Variable M : list N -> list N -> option text.
  Variable Q : list N -> Prop.

  Hypothesis add_ok : forall b dg dt items, Forall flat items -> b <> [] ->
    adds (option_map (app items) (add b dg dt)) items (amean b).
  Hypothesis amean_nil : amean [] = Some [].
  Hypothesis Q_tail : forall a s, Q (a :: s) -> Q s.
  Hypothesis M_nil : forall b, M b [] = amean b.
  Hypothesis M_byte : forall b x r, plain_at (x :: r) -> M b (x :: r) = M (b ++ [x]) r.
  Hypothesis M_ref : forall b n s, n <> [] -> name_span false (n ++ 125%N :: s) = (n, 125%N :: s) ->
    M b (opened n ++ 125%N :: s) = cat (amean b) (cat (ref_text n) (M [] s)).
  Hypothesis M_bad : forall b n s, name_span false (n ++ s) = (n, s) ->
    (n = [] \/ after 125 s = None) -> (pd = true -> after 58 s <> None -> has_dot n = false -> teqb_ic n (lit "hex") = false /\ teqb_ic n (lit "unicode") = false) ->
    M b (opened n ++ s) = M (b ++ opened n) s.
  Hypothesis M_literal : forall n s, n <> [] -> name_span false (n ++ 125%N :: s) = (n, 125%N :: s) ->
    resolve n (all_digits n) (has_dot n) = RLiteral ->
    M (opened n ++ [125%N]) s = cat (Some (opened n ++ [125%N])) (M [] s).

  Notation go := (tok_go pd resolve add).

  Lemma go_text x s last b dg dt items : go (x :: s) last (mkt KText b dg dt items) =
    match step_text x last b dg dt items with Some t => go s x t | None => None end.
  Proof. reflexivity. Qed.
  Lemma go_var raw num ns x s last b dg dt items : go (x :: s) last (mkt (KVar raw num ns) b dg dt items) =
    match step_var pd resolve add raw num ns x b dg dt items with Some t => go s x t | None => None end.
  Proof. reflexivity. Qed.
  Lemma go_enc raw uni size hex x s last b dg dt items : go (x :: s) last (mkt (KEnc raw uni size hex) b dg dt items) =
    match step_enc raw uni size hex x b dg dt items with Some t => go s x t | None => None end.
  Proof. reflexivity. Qed.

  (** What the last byte leaves pending: a '$'. *)
  Definition hanging (last : N) (buf pre b : list N) : Prop :=
    (last = 36%N /\ pre = [36%N] /\ buf = b ++ [36%N]) \/ (last <> 36%N /\ pre = [] /\ buf = b).
  Definition T (s : list N) : Prop := forall last buf pre b dg dt items,
    hanging last buf pre b -> Forall flat items -> Q (pre ++ s) ->
    adds (go s last (mkt KText buf dg dt items)) items (M b (pre ++ s)).

  Hypothesis enc_ok : pd = true -> forall s b n (uni : bool) dg dt items last,
    (forall s', length s' < length s -> T s') -> Forall flat items ->
    name_span false (n ++ 58%N :: s) = (n, 58%N :: s) -> has_dot n = false ->
    teqb_ic n (if uni then lit "unicode" else lit "hex") = true ->
    Q (opened n ++ 58%N :: s) ->
    adds (go s last (mkt (KEnc (n ++ [58%N]) uni (length b) []) b dg dt items)) items (M b (opened n ++ 58%N :: s)).

  Lemma Q_app : forall a s, Q (a ++ s) -> Q s.
  Proof. induction a as [|x a IH]; intros s H; [exact H|]. apply IH, (Q_tail x), H. Qed.

  Lemma hang_next x buf : hanging x (buf ++ [x]) (if N.eqb x 36 then [36%N] else []) (if N.eqb x 36 then buf else buf ++ [x]).
  Proof.
    destruct (N.eqb_spec x 36) as [->|Nx]; [left; repeat split|right; repeat split; exact Nx].
  Qed.

  (** Reading a name. *)
  Lemma var_run : forall s raw num ns last b dg dt items n r, name_span ns s = (n, r) ->
    exists last', go s last (mkt (KVar raw num ns) b dg dt items) =
                  go r last' (mkt (KVar (raw ++ n) (num && all_digits n) (ns || has_dot n)) b dg dt items).
  Proof.
    induction s as [|x s IH]; intros raw num ns last b dg dt items n r H; cbn [name_span] in H.
    - injection H as <- <-. exists last. rewrite app_nil_r, andb_true_r, orb_false_r. reflexivity.
    - destruct (name_char x || (N.eqb x 58 && ns)) eqn:E.
      + destruct (name_span (ns || N.eqb x 46) s) as [u v] eqn:F. injection H as <- <-.
        destruct (IH (raw ++ [x]) (num && is_digit_ascii x) _ x b dg dt items u v F) as [l' IH'].
        exists l'. rewrite go_var. rewrite <- app_assoc in IH'. cbn [app] in IH'.
        replace (num && all_digits (x :: u)) with (num && is_digit_ascii x && all_digits u)
          by (cbn [all_digits forallb]; apply eq_sym, andb_assoc).
        replace (ns || has_dot (x :: u)) with (ns || N.eqb x 46 || has_dot u)
          by (cbn [has_dot existsb]; rewrite (N.eqb_sym 46 x); apply eq_sym, orb_assoc).
        rewrite <- IH'. clear IH' IH.
        unfold step_var.
        unfold name_char in E. destruct (name_byte x) eqn:E1.
        { replace (is_digit_ascii x) with false by (unfold name_byte, is_alpha_ascii, is_upper_ascii, is_lower_ascii, is_digit_ascii, between in *; lia).
          replace (N.eqb x 46) with false by (unfold name_byte, is_alpha_ascii, is_upper_ascii, is_lower_ascii, between in *; lia).
          rewrite andb_false_r, orb_false_r. reflexivity. }
        destruct (N.eqb_spec x 46) as [->|N46].
        { cbn. rewrite andb_false_r, orb_true_r. reflexivity. }
        rewrite orb_false_r. destruct (is_digit_ascii x) eqn:E2; [rewrite andb_true_r; reflexivity|].
        cbn [orb] in E. apply andb_prop in E as [E3 ->]. apply N.eqb_eq in E3. subst x. rewrite andb_false_r.
        cbn. rewrite andb_false_r. reflexivity.
      + injection H as <- <-. exists last. rewrite app_nil_r, andb_true_r, orb_false_r. reflexivity.
  Qed.

  Lemma keep_go n x r b dg dt items : x <> 36%N \/ True -> Forall flat items ->
    (forall s', length s' <= length r -> T s') -> Q (x :: r) ->
    adds (go r x (keep b n x items dg dt)) items (M (b ++ opened n) (x :: r)).
  Proof.
    intros _ F IH HQ. unfold keep. rewrite app_assoc.
    specialize (IH r (le_n _) x ((b ++ opened n) ++ [x]) _ _ dg dt items (hang_next x (b ++ opened n)) F).
    destruct (N.eqb_spec x 36) as [->|Nx]; cbn [app] in IH.
    - apply IH. exact HQ.
    - rewrite M_byte by (apply plain_at_1, Nx). apply IH. apply (Q_tail x), HQ.
  Qed.

  Lemma loop_ok : forall k s, length s <= k -> T s.
  Proof.
    induction k as [|k IH]; intros s Hk last buf pre b dg dt items HH F HQ.
    - destruct s; [|cbn in Hk; lia]. cbn [tok_go]. unfold tok_end. cbn [mkt k_st k_buf k_items k_digits k_dots].
      assert (Em : M b (pre ++ []) = amean buf).
      { destruct HH as [(_ & -> & ->)|(_ & -> & ->)]; cbn [app]; [|apply M_nil].
        rewrite M_byte by reflexivity. apply M_nil. }
      rewrite Em. destruct buf as [|x buf]; [|apply add_ok; [exact F|discriminate]].
      rewrite amean_nil. cbn. split; [exact F|rewrite app_nil_r; reflexivity].
    - destruct s as [|x s].
      { apply (IH [] ltac:(cbn; lia) last buf pre b dg dt items HH F HQ). }
      cbn [length] in Hk.
      destruct (N.eqb_spec last 36) as [El|Nl], (N.eqb_spec x 123) as [Ex|Nx].
      + (* a reference begins *)
        destruct HH as [(_ & -> & ->)|(Hl & _)]; [|congruence]. subst last x. cbn [app].
        rewrite go_text. unfold step_text. rewrite !N.eqb_refl. cbn [andb].
        rewrite removelast_last.
        destruct (name_span false s) as [n r] eqn:E. destruct (var_run s [] true false 123%N b dg dt items n r E) as [l' Ev].
        cbn [app andb orb] in Ev. rewrite Ev. clear Ev. pose proof (nspan_app _ _ _ _ E) as Es.
        assert (HQr : Q r) by (apply (Q_app (36%N :: 123%N :: n)); cbn [app] in HQ; rewrite Es in HQ; exact HQ).
        assert (E' : name_span false (n ++ r) = (n, r)) by (rewrite <- Es; exact E).
        rewrite Es. change (36%N :: 123%N :: n ++ r) with (opened n ++ r).
        destruct r as [|x r].
        { cbn [tok_go]. unfold tok_end. cbn [mkt k_st k_buf k_items k_digits k_dots].
          rewrite (M_bad b n [] E') by (try (right; reflexivity); intros _ X; exfalso; apply X; reflexivity).
          rewrite M_nil. destruct (b ++ opened n) eqn:Eb; [apply app_eq_nil in Eb as [_ Eb]; unfold opened in Eb; discriminate|]. rewrite <- Eb. apply add_ok; [exact F|congruence]. }
        assert (Hlen : forall s', length s' <= length r -> T s').
        { intros s' Hs'. apply IH. rewrite Es, app_length in Hk. cbn [length] in Hk. lia. }
        assert (Hst : name_char x || (N.eqb x 58 && has_dot n) = false).
        { apply (nspan_stop _ _ _ _ _ E). }
        apply orb_false_elim in Hst as [Hnc Hcol].
        assert (Hnb : name_byte x = false /\ N.eqb x 46 = false /\ is_digit_ascii x = false).
        { unfold name_char in Hnc. apply orb_false_elim in Hnc as [Hnc ?]. apply orb_false_elim in Hnc as [? ?]. auto. }
        destruct Hnb as (Hb1 & Hb2 & Hb3).
        rewrite go_var. unfold step_var. rewrite Hb1, Hb2, Hb3. cbn [orb].
        destruct (N.eqb_spec x 125) as [->|N125].
        * destruct n as [|n0 n].
          { rewrite (M_bad b [] (125%N :: r) E') by (try (left; reflexivity); intros _ X; exfalso; apply X; reflexivity).
            apply keep_go; auto. }
          remember (n0 :: n) as nm eqn:En. assert (Hnm : nm <> []) by (subst; discriminate).
          rewrite (M_ref b nm r Hnm E').
          assert (Hb : adds (match b with [] => Some items | _ => option_map (app items) (add b dg dt) end) items (amean b)).
          { destruct b; [rewrite amean_nil; cbn; split; [exact F|rewrite app_nil_r; reflexivity]|]. apply add_ok; [exact F|discriminate]. }
          replace (match b with
                   | [] => Some (items, dg, dt)
                   | _ :: _ => option_map (fun l => (items ++ l, true, false)) (add b dg dt)
                   end) with (option_map (fun i => (i, match b with [] => dg | _ => true end, match b with [] => dt | _ => false end))
                                (match b with [] => Some items | _ => option_map (app items) (add b dg dt) end))
            by (destruct b; [reflexivity|]; destruct (add _ dg dt); reflexivity).
          subst nm. cbn match. set (nm := n0 :: n) in *.
          destruct (match b with [] => Some items | _ => option_map (app items) (add b dg dt) end) as [items'|] eqn:Ei;
            cbn [adds] in Hb; destruct (amean b) as [tb|]; try contradiction; cbn [option_map].
          2:{ exact Logic.I. }
          destruct Hb as [F' Eo].
          eapply adds_base; [exact Eo|].
          unfold StringSpec.ref_text. destruct (resolve nm (all_digits nm) (has_dot nm)) as [v| | |] eqn:Er.
          -- eapply adds_base; [instantiate (1 := items' ++ [XVariable v]); unfold outs; rewrite flat_map_app; cbn; rewrite app_nil_r; reflexivity|].
             apply (Hlen r (le_n _) 125%N [] [] []).
             { right. repeat split. discriminate. }
             { apply Forall_app. split; [exact F'|]. constructor; [exact Logic.I|constructor]. }
             { apply (Q_tail 125%N), HQr. }
          -- apply (adds_base _ _ [] _ items'); [rewrite app_nil_r; reflexivity|]. apply (Hlen r (le_n _) 125%N [] [] []).
             { right. repeat split. discriminate. }
             { exact F'. }
             { apply (Q_tail 125%N), HQr. }
          -- rewrite <- (M_literal nm r Hnm E' Er). unfold keep. cbn [app].
             apply (Hlen r (le_n _) 125%N (opened nm ++ [125%N]) [] (opened nm ++ [125%N])).
             { right. repeat split. discriminate. }
             { exact F'. }
             { apply (Q_tail 125%N), HQr. }
          -- exact Logic.I.
        * destruct (N.eqb_spec x 58) as [->|N58].
          { cbn [andb] in Hcol. rewrite Hcol.
            assert (K : M b (opened n ++ 58%N :: r) = M (b ++ opened n) (58%N :: r) ->
                        adds (go r 58%N (keep b n 58%N items dg dt)) items (M b (opened n ++ 58%N :: r)))
              by (intros ->; apply keep_go; auto).
            destruct pd eqn:Ep; cbn [andb negb].
            - destruct (teqb_ic n (lit "hex")) eqn:Eh.
              + apply (enc_ok eq_refl r b n false); auto. intros s' Hs'. apply Hlen. lia.
                cbn [app] in HQ. rewrite Es in HQ. exact HQ.
              + destruct (teqb_ic n (lit "unicode")) eqn:Eu.
                * apply (enc_ok eq_refl r b n true); auto. intros s' Hs'. apply Hlen. lia.
                  cbn [app] in HQ. rewrite Es in HQ. exact HQ.
                * apply K. apply (M_bad b n (58%N :: r) E'); [right; reflexivity|]. intros _ _ _. split; assumption.
            - apply K. apply (M_bad b n (58%N :: r) E'); [right; reflexivity|discriminate]. }
          rewrite (M_bad b n (x :: r) E') by (try (right; apply after_not, N125); intros _ X; exfalso; apply X, after_not, N58).
          apply keep_go; auto.
      + (* '$' then another byte *)
        assert (St : exists dg' dt', step_text x last buf dg dt items = Some (mkt KText (buf ++ [x]) dg' dt' items)).
        { unfold step_text. destruct (N.eqb_spec x 123); [congruence|]. cbn [andb].
          destruct (N.eqb x 46); [eauto|]. destruct (is_digit_ascii x); eauto. }
        destruct St as (dg' & dt' & St). rewrite go_text, St.
        destruct HH as [(_ & -> & ->)|(Hl & _)]; [|congruence]. cbn [app].
        rewrite M_byte by (unfold plain_at, after_open; destruct (N.eqb_spec x 123); [congruence|]; rewrite andb_false_r; reflexivity).
        specialize (IH s ltac:(lia) x ((b ++ [36%N]) ++ [x]) _ _ dg' dt' items (hang_next x (b ++ [36%N])) F).
        cbn [app] in HQ. destruct (N.eqb_spec x 36) as [->|N36]; cbn [app] in IH.
        * apply IH. apply (Q_tail 36%N), HQ.
        * rewrite M_byte by (apply plain_at_1, N36). apply IH. apply (Q_tail x), (Q_tail 36%N), HQ.
      + assert (St : exists dg' dt', step_text x last buf dg dt items = Some (mkt KText (buf ++ [x]) dg' dt' items)).
        { unfold step_text. destruct (N.eqb_spec last 36); [congruence|]. rewrite andb_false_r.
          destruct (N.eqb x 46); [eauto|]. destruct (is_digit_ascii x); eauto. }
        destruct St as (dg' & dt' & St). rewrite go_text, St.
        destruct HH as [(Hl & _)|(_ & -> & ->)]; [congruence|]. cbn [app] in *.
        specialize (IH s ltac:(lia) x (b ++ [x]) _ _ dg' dt' items (hang_next x b) F).
        subst x. cbn in IH. rewrite M_byte by (apply plain_at_1; discriminate). apply IH. apply (Q_tail _ _ HQ).
      + assert (St : exists dg' dt', step_text x last buf dg dt items = Some (mkt KText (buf ++ [x]) dg' dt' items)).
        { unfold step_text. destruct (N.eqb_spec last 36); [congruence|]. rewrite andb_false_r.
          destruct (N.eqb x 46); [eauto|]. destruct (is_digit_ascii x); eauto. }
        destruct St as (dg' & dt' & St). rewrite go_text, St.
        destruct HH as [(Hl & _)|(_ & -> & ->)]; [congruence|]. cbn [app] in *.
        specialize (IH s ltac:(lia) x (b ++ [x]) _ _ dg' dt' items (hang_next x b) F).
        destruct (N.eqb_spec x 36) as [->|N36]; cbn [app] in IH.
        * apply IH. exact HQ.
        * rewrite M_byte by (apply plain_at_1, N36). apply IH. apply (Q_tail _ _ HQ).
  Qed.
End Loop.
