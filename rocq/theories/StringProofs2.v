(** The two passes over a string, and the whole. *)
From Verif Require Import Base Lib Var Value Utf8 Lexer Scope StringTok StringSpec StringProofs.

Lemma nspan_swap : forall n ns s s', name_span ns (n ++ 125%N :: s) = (n, 125%N :: s) ->
  name_span ns (n ++ 125%N :: s') = (n, 125%N :: s').
Proof.
  induction n as [|x n IH]; intros ns s s' H; [reflexivity|]. cbn [app name_span] in *.
  destruct (name_char x || (N.eqb x 58 && ns)); [|discriminate].
  destruct (name_span (ns || N.eqb x 46) (n ++ 125%N :: s)) as [u v] eqn:F. injection H as -> ->.
  rewrite (IH _ _ s' F). reflexivity.
Qed.
Lemma ok_ascii n : Forall name_ok n -> Forall (fun x => (x < 128)%N) (opened n ++ [125%N]).
Proof.
  intro F. unfold opened. cbn [app]. constructor; [lia|]. constructor; [lia|]. apply Forall_app. split; [|constructor; [lia|constructor]].
  eapply Forall_impl; [|exact F]. cbn. intros a H. apply name_ok_bounds in H. lia.
Qed.
Lemma ok_plain n : Forall name_ok n -> Forall (fun x => x <> 36%N) n.
Proof. intro F. eapply Forall_impl; [|exact F]. cbn. intros a H. apply name_ok_bounds in H. lia. Qed.

Lemma ref_bad n s : name_span false (n ++ s) = (n, s) -> n = [] \/ after 125 s = None -> ref_at (opened n ++ s) = None.
Proof.
  intros E H. unfold ref_at, opened. cbn [app after_open]. rewrite !N.eqb_refl. cbn [andb]. rewrite E.
  destruct H as [-> | ->]; [reflexivity|]. destruct n; reflexivity.
Qed.
Lemma pieces_bad n s : name_span false (n ++ s) = (n, s) -> n = [] \/ after 125 s = None ->
  pieces (opened n ++ s) = map SByte (opened n) ++ pieces s.
Proof.
  intros E H. unfold opened at 1. cbn [app]. rewrite pieces_cons.
  change (36%N :: 123%N :: n ++ s) with (opened n ++ s). rewrite (ref_bad n s E H).
  unfold opened. cbn [map app]. f_equal. apply (pieces_plain (123%N :: n)).
  constructor; [discriminate|]. apply ok_plain, (nspan_ok _ _ _ _ E).
Qed.

(** ** The inner pass *)
Section Inner.
  Variables (L : rustlib) (resolve : list N -> bool -> bool -> vres) (c : vctx).
  Notation render := (render L resolve c).

  Lemma add_plain_ok b dg dt items : Forall flat items -> b <> [] ->
    adds L c (option_map (app items) (add_plain L b dg dt)) items (Some (utf8_lossy b)).
  Proof.
    intros F _. unfold add_plain. rewrite into_lossy. set (s := utf8_lossy b). cbn [option_map adds].
    match goal with |- Forall flat (items ++ [?x]) /\ _ => assert (G : flat x /\ piece L c x = s) end.
    { destruct dg; [|split; [exact Logic.I|reflexivity]]. destruct dt.
      - destruct (match utf8_strict b with Some v => f64_parse L v | None => None end) as [n|]; [|split; [exact Logic.I|reflexivity]].
        destruct (teqb (f64_show L n) s) eqn:E; [|split; [exact Logic.I|reflexivity]]. apply teqb_spec in E. split; [exact Logic.I|exact E].
      - destruct (match utf8_strict b with Some v => parse_i64 v | None => None end) as [n|]; [|split; [exact Logic.I|reflexivity]].
        destruct (teqb (show_Z n) s) eqn:E; [|split; [exact Logic.I|reflexivity]]. apply teqb_spec in E. split; [exact Logic.I|exact E]. }
    destruct G as [G1 G2]. split.
    - apply Forall_app. split; [exact F|]. constructor; [exact G1|constructor].
    - unfold outs. rewrite flat_map_app. cbn [flat_map]. rewrite G2, app_nil_r. reflexivity.
  Qed.

  Lemma inner_ok bs items : Forall flat items ->
    adds L c (tok_go false resolve (add_plain L) bs 0%N (mkt KText [] true false items)) items (render [] (pieces bs)).
  Proof.
    intro F.
    refine (loop_ok L resolve c false (add_plain L) (fun b => Some (utf8_lossy b)) (fun b s => render b (pieces s)) (fun _ => True)
              add_plain_ok eq_refl (fun _ _ _ => Logic.I) (fun _ => eq_refl) _ _ _ _ _ (length bs) bs (le_n _) 0%N [] [] [] true false items _ F Logic.I).
    - intros b x r H. rewrite (pieces_byte x r H). reflexivity.
    - intros b n s Hn E. rewrite (pieces_ref n s Hn E). reflexivity.
    - intros b n s E H _. rewrite (pieces_bad n s E H), render_bytes. reflexivity.
    - intros n s _ E _. rewrite <- (app_nil_r (opened n ++ [125%N])) at 1.
      apply render_ascii, ok_ascii, (nspan_ok _ _ _ _ E).
    - discriminate.
    - right. repeat split. discriminate.
  Qed.

  Lemma pack_text items : Forall flat items -> v_text L (eval_value L c (pack items)) = outs L c items.
  Proof.
    intro F. unfold outs. destruct items as [|x [|y l]]; [reflexivity| |reflexivity].
    cbn [pack flat_map]. rewrite app_nil_r. inversion F as [|? ? Fx _]; subst.
    destruct x as [| |v| |]; cbn; try reflexivity; try (exact (False_ind _ Fx)). destruct (variable c v); reflexivity.
  Qed.

  Lemma add_decoded_ok b dg dt items : Forall flat items -> b <> [] ->
    adds L c (option_map (app items) (add_decoded L resolve b dg dt)) items (render [] (pieces b)).
  Proof.
    intros F _. unfold add_decoded, tokenize_inner, tok_run.
    pose proof (inner_ok b [] (Forall_nil _)) as H. unfold adds in H.
    destruct (tok_go false resolve (add_plain L) b 0%N (mkt KText [] true false [])) as [l|]; cbn [option_map];
      destruct (render [] (pieces b)) as [t|]; try contradiction; [|exact Logic.I].
    destruct H as [Fl E]. cbn [outs flat_map app] in E.
    assert (G : splice (pack l) = l \/
                (l = [] /\ splice (pack l) = [XText []])).
    { destruct l as [|x [|y l]]; [right; split; reflexivity| |left; reflexivity]. left. cbn. inversion Fl as [|? ? Fx _]; subst.
      destruct x; try reflexivity; contradiction. }
    destruct G as [-> | [-> ->]]; cbn [option_map adds].
    - split; [apply Forall_app; split; assumption|]. unfold outs. rewrite flat_map_app. f_equal. exact E.
    - split; [apply Forall_app; split; [exact F|constructor; [exact Logic.I|constructor]]|].
      cbn in E. subst t. unfold outs. rewrite flat_map_app. reflexivity.
  Qed.
End Inner.

(** ** Encoded sequences *)
Lemma from_hexval w : from_hex w = hexval w.
Proof.
  unfold from_hex. assert (G : forall w a, fold_left (fun a c => a * 16 + hex_digit c)%N w a = (a * 16 ^ N.of_nat (length w) + hexval w)%N).
  { clear w. induction w as [|x w IH]; intro a; [cbn; lia|].
    cbn [fold_left hexval length]. rewrite IH, Nat2N.inj_succ, N.pow_succ_r'. lia. }
  rewrite G. lia.
Qed.
Lemma decode_code_eq uni hex b : hex <> [] -> decode_code uni hex b =
  match dec_word uni hex with DOk x => Some (b ++ x, false) | DKeep => Some (b, true) | DErr => None end.
Proof.
  intro H. unfold decode_code, dec_word. destruct hex as [|x hex]; [congruence|]. rewrite from_hexval.
  set (v := hexval (x :: hex)). change (2 ^ 32 - 1)%N with 4294967295%N.
  destruct uni.
  - destruct (N.leb v 4294967295); [|reflexivity]. destruct (scalarb v); reflexivity.
  - destruct (N.leb v 255); reflexivity.
Qed.
Lemma dec_word_some uni w b : dec_word uni w = DOk b -> b <> [].
Proof.
  unfold dec_word. destruct uni.
  - destruct (N.leb _ _); [|discriminate]. destruct (scalarb _); [|discriminate]. intro H. injection H as <-.
    unfold utf8_char. repeat (match goal with |- context [if ?x then _ else _] => destruct x end); discriminate.
  - destruct (N.leb _ _); [|discriminate]. intro H. injection H as <-. discriminate.
Qed.
Lemma dec_words_some uni ws b : dec_words uni ws = DOk b -> ws <> [] -> b <> [].
Proof.
  destruct ws as [|w ws]; [congruence|]. cbn [dec_words]. destruct (dec_word uni w) as [x| |] eqn:E; try discriminate.
  destruct (dec_words uni ws) as [y| |]; try discriminate. intros H _. injection H as <-.
  apply dec_word_some in E. destruct x; [congruence|discriminate].
Qed.
Lemma dec_words_app uni : forall ws w, dec_words uni (ws ++ [w]) =
  match dec_words uni ws with
  | DOk b => match dec_word uni w with DOk x => DOk (b ++ x) | y => y end
  | y => y
  end.
Proof.
  induction ws as [|v ws IH]; intro w; cbn [app dec_words].
  - destruct (dec_word uni w); [|reflexivity..]. rewrite app_nil_r. reflexivity.
  - destruct (dec_word uni v) as [x| |]; try reflexivity. rewrite IH. destruct (dec_words uni ws) as [y| |]; try reflexivity.
    destruct (dec_word uni w) as [z| |]; try reflexivity. rewrite app_assoc. reflexivity.
Qed.

Definition keyword (uni : bool) : text := if uni then lit "unicode" else lit "hex".
Lemma alpha_bounds c : is_alpha_ascii c = true -> (65 <= c < 128)%N /\ name_byte c = true.
Proof. unfold name_byte. intro H. rewrite H. split; [|reflexivity]. unfold is_alpha_ascii, is_upper_ascii, is_lower_ascii, between in H. lia. Qed.
Lemma alpha_span : forall kw s, Forall (fun c => is_alpha_ascii c = true) kw ->
  name_span false (kw ++ 58%N :: s) = (kw, 58%N :: s) /\ has_dot kw = false.
Proof.
  induction kw as [|x kw IH]; intros s F; [split; reflexivity|]. inversion F as [|? ? X F']; subst.
  destruct (alpha_bounds x X) as [B1 B2]. cbn [app name_span has_dot existsb]. unfold name_char. rewrite B2. cbn [orb].
  replace (N.eqb x 46) with false by lia. replace (N.eqb 46 x) with false by lia. cbn [orb].
  destruct (IH s F') as [-> D]. split; [reflexivity|exact D].
Qed.
Lemma enc_at_spec t uni body r : enc_at (36%N :: 123%N :: t) = Some (uni, body, r) ->
  exists kw, t = kw ++ 58%N :: body ++ r /\ name_span false t = (kw, 58%N :: body ++ r) /\ has_dot kw = false /\
             teqb_ic kw (keyword uni) = true /\ span (fun c => is_hex c || is_blank c) (body ++ r) = (body, r).
Proof.
  unfold enc_at. cbn [after_open]. rewrite !N.eqb_refl. cbn [andb].
  destruct (span is_alpha_ascii t) as [kw s2] eqn:E. destruct (after 58 s2) as [s3|] eqn:A; [|discriminate].
  apply after_spec in A. subst s2. destruct (span (fun c => is_hex c || is_blank c) s3) as [bd q] eqn:B.
  intro H. assert (K : uni = false /\ teqb_ic kw (lit "hex") = true \/ uni = true /\ teqb_ic kw (lit "unicode") = true).
  { destruct (teqb_ic kw (lit "hex")); [left; split; [congruence|reflexivity]|].
    destruct (teqb_ic kw (lit "unicode")); [right; split; [congruence|reflexivity]|discriminate]. }
  assert (bd = body /\ q = r) as [-> ->].
  { destruct (teqb_ic kw (lit "hex")); [split; congruence|]. destruct (teqb_ic kw (lit "unicode")); [split; congruence|discriminate]. }
  pose proof (span_app _ _ _ _ B) as B'. pose proof (span_app _ _ _ _ E) as E'. pose proof (span_all _ _ _ _ E) as EA.
  destruct (alpha_span kw s3 EA) as [S D]. exists kw. subst t s3. repeat split; try assumption.
  destruct K as [[-> K] | [-> K]]; exact K.
Qed.
Lemma teqb_ic_keyword kw u v : teqb_ic kw (keyword u) = true -> teqb_ic kw (keyword v) = true -> u = v.
Proof.
  destruct u, v; try reflexivity; unfold teqb_ic, keyword; intros A B;
    apply teqb_spec in A; apply teqb_spec in B; rewrite A in B; discriminate.
Qed.
Lemma enc_shorter s x r : encoded s = Some (x, r) -> length r < length s.
Proof.
  unfold encoded. destruct (enc_at s) as [[[uni body] q]|] eqn:E; [|discriminate].
  destruct (after 125 q) as [q'|] eqn:A; [|discriminate]. apply after_spec in A. subst q.
  destruct (codes body); [discriminate|]. intro H. injection H as _ <-.
  destruct (after_open s) as [t|] eqn:O; [|unfold enc_at in E; rewrite O in E; discriminate].
  apply after_open_spec in O. subst s. apply enc_at_spec in E as (kw & -> & _). cbn. rewrite !app_length. cbn. rewrite app_length. cbn. lia.
Qed.
Lemma decode_fuel : forall f g s, length s <= f -> length s <= g -> decode_f f s = decode_f g s.
Proof.
  induction f as [|f IH]; intros g s Hf Hg.
  - destruct s; [destruct g; reflexivity|cbn in Hf; lia].
  - destruct s as [|c r]; [destruct g; reflexivity|]. destruct g as [|g]; [cbn in Hg; lia|].
    cbn [decode_f length] in *. destruct (encoded (c :: r)) as [[[b| |] q]|] eqn:E; try reflexivity.
    + apply enc_shorter in E. cbn in E. f_equal. apply IH; lia.
    + f_equal. apply IH; lia.
    + f_equal. apply IH; lia.
Qed.
Lemma decode_cons c r : decode (c :: r) =
  match encoded (c :: r) with
  | Some (DOk b, r') => option_map (app b) (decode r')
  | Some (DErr, _) => None
  | _ => option_map (cons c) (decode r)
  end.
Proof.
  unfold decode at 1. cbn [length decode_f]. destruct (encoded (c :: r)) as [[[b| |] q]|] eqn:E; try reflexivity.
  apply enc_shorter in E. cbn in E. f_equal. apply decode_fuel; lia.
Qed.
Lemma enc_plain s : plain_at s -> encoded s = None.
Proof. unfold plain_at, encoded, enc_at. intros ->. reflexivity. Qed.
(** A sequence that stays as it is. *)
Definition stays (s : list N) : Prop := match encoded s with None | Some (DKeep, _) => True | _ => False end.
Lemma decode_stays c r : stays (c :: r) -> decode (c :: r) = option_map (cons c) (decode r).
Proof. unfold stays. rewrite decode_cons. destruct (encoded (c :: r)) as [[[b| |] q]|]; try contradiction; reflexivity. Qed.
Lemma omap_comp {A B D} (f : A -> B) (g : B -> D) o : option_map g (option_map f o) = option_map (fun x => g (f x)) o.
Proof. destruct o; reflexivity. Qed.
Lemma omap_ext {A B} (f g : A -> B) o : (forall x, f x = g x) -> option_map f o = option_map g o.
Proof. intro H. destruct o; cbn; [rewrite H|]; reflexivity. Qed.
Lemma decode_plain : forall w s, Forall (fun c => c <> 36%N) w -> decode (w ++ s) = option_map (app w) (decode s).
Proof.
  induction w as [|x w IH]; intros s F; [cbn [app]; destruct (decode s); reflexivity|]. inversion F; subst. cbn [app].
  rewrite decode_stays by (unfold stays; rewrite enc_plain by (apply plain_at_1; assumption); exact Logic.I).
  rewrite IH by assumption. rewrite omap_comp. apply omap_ext. reflexivity.
Qed.
Lemma decode_open n s : stays (opened n ++ s) -> Forall (fun c => c <> 36%N) n ->
  decode (opened n ++ s) = option_map (app (opened n)) (decode s).
Proof.
  intros H F. unfold opened in *. cbn [app] in *. rewrite decode_stays by exact H.
  change (123%N :: n ++ s) with ((123%N :: n) ++ s). rewrite decode_plain by (constructor; [discriminate|exact F]).
  rewrite omap_comp. apply omap_ext. reflexivity.
Qed.
(** A name followed by something else than ':', or which is not a keyword. *)
Lemma enc_not n s : name_span false (n ++ s) = (n, s) ->
  (after 58 s <> None -> has_dot n = false -> teqb_ic n (lit "hex") = false /\ teqb_ic n (lit "unicode") = false) ->
  encoded (opened n ++ s) = None.
Proof.
  intros E H. unfold encoded. destruct (enc_at (opened n ++ s)) as [[[uni body] r]|] eqn:A; [|reflexivity]. exfalso.
  unfold opened in A. cbn [app] in A. apply enc_at_spec in A as (kw & _ & B & D & K & _). rewrite E in B. injection B as -> ->.
  destruct (H ltac:(discriminate) D) as [H1 H2]. destruct uni; cbn [keyword] in K; congruence.
Qed.

(** ** The outer pass *)
Section Outer.
  Variables (L : rustlib) (resolve : list N -> bool -> bool -> vres) (c : vctx).
  Notation render := (render L resolve c).
  Notation add := (add_decoded L resolve).
  Definition Mo (b s : list N) : option text :=
    match decode s with Some d => render [] (pieces (b ++ d)) | None => None end.
  Notation T := (T L resolve c true add Mo regular).
  Notation go := (tok_go true resolve add).

  Lemma regular_tail a s : regular (a :: s) -> regular s.
  Proof. intros H pre x E. apply (H (a :: pre)). cbn. rewrite E. reflexivity. Qed.
  Lemma Mo_nil b : Mo b [] = render [] (pieces b).
  Proof. unfold Mo. cbn. rewrite app_nil_r. reflexivity. Qed.
  Lemma Mo_map b w s : decode (w ++ s) = option_map (app w) (decode s) -> Mo b (w ++ s) = Mo (b ++ w) s.
  Proof. unfold Mo. intros ->. destruct (decode s) as [d|]; [|reflexivity]. cbn. rewrite app_assoc. reflexivity. Qed.
  Lemma Mo_byte b x r : plain_at (x :: r) -> Mo b (x :: r) = Mo (b ++ [x]) r.
  Proof.
    intro H. apply (Mo_map b [x] r). cbn [app].
    rewrite decode_stays by (unfold stays; rewrite (enc_plain _ H); exact Logic.I). apply omap_ext. reflexivity.
  Qed.
  Lemma Mo_plain b w s : Forall (fun x => x <> 36%N) w -> Mo b (w ++ s) = Mo (b ++ w) s.
  Proof. intro F. apply Mo_map, decode_plain, F. Qed.
  Lemma Mo_bad b n s : name_span false (n ++ s) = (n, s) ->
    (after 58 s <> None -> has_dot n = false -> teqb_ic n (lit "hex") = false /\ teqb_ic n (lit "unicode") = false) ->
    Mo b (opened n ++ s) = Mo (b ++ opened n) s.
  Proof.
    intros E H. apply Mo_map, decode_open; [unfold stays; rewrite (enc_not n s E H); exact Logic.I|].
    apply ok_plain, (nspan_ok _ _ _ _ E).
  Qed.
  Lemma render_refs b n d : n <> [] -> name_span false (n ++ 125%N :: d) = (n, 125%N :: d) ->
    render [] (pieces (b ++ opened n ++ 125%N :: d)) =
    cat (render [] (pieces b)) (cat (ref_text L resolve c n) (render [] (pieces d))).
  Proof.
    intros Hn E. unfold opened. cbn [app]. rewrite (pieces_app (length b) b _ (le_n _)).
    change (36%N :: 123%N :: n ++ 125%N :: d) with (opened n ++ 125%N :: d). rewrite (pieces_ref n d Hn E). apply render_ref.
  Qed.
  Lemma Mo_ref b n s : n <> [] -> name_span false (n ++ 125%N :: s) = (n, 125%N :: s) ->
    Mo b (opened n ++ 125%N :: s) = cat (render [] (pieces b)) (cat (ref_text L resolve c n) (Mo [] s)).
  Proof.
    intros Hn E. rewrite (Mo_bad b n (125%N :: s) E) by (intro X; exfalso; apply X; reflexivity).
    change (125%N :: s) with ([125%N] ++ s). rewrite (Mo_plain (b ++ opened n) [125%N] s) by (constructor; [discriminate|constructor]).
    unfold Mo. destruct (decode s) as [d|]; [|destruct (render [] (pieces b)), (ref_text L resolve c n); reflexivity].
    rewrite <- !app_assoc. cbn [app]. apply render_refs; [exact Hn|]. apply (nspan_swap _ _ _ _ E).
  Qed.
  Lemma Mo_literal n s : n <> [] -> name_span false (n ++ 125%N :: s) = (n, 125%N :: s) ->
    resolve n (all_digits n) (has_dot n) = RLiteral ->
    Mo (opened n ++ [125%N]) s = cat (Some (opened n ++ [125%N])) (Mo [] s).
  Proof.
    intros Hn E R. unfold Mo. destruct (decode s) as [d|]; [|reflexivity].
    rewrite <- app_assoc. cbn [app]. rewrite <- (app_nil_l (opened n ++ 125%N :: d)).
    rewrite (render_refs [] n d Hn (nspan_swap _ _ _ _ E)). unfold ref_text. rewrite R. cbn.
    destruct (render [] (pieces d)); reflexivity.
  Qed.

  (** The codes of an encoded sequence. *)
  Definition encb (x : N) : bool := is_hex x || is_blank x.
  Lemma enc_loop : forall body rest raw uni b0 bs hex last dg dt items, Forall (fun x => encb x = true) body ->
    let (ws, w) := cut_words hex body in
    match dec_words uni ws with
    | DOk b' => exists last', go (body ++ rest) last (mkt (KEnc raw uni (length b0) hex) (b0 ++ bs) dg dt items) =
                              go rest last' (mkt (KEnc (raw ++ body) uni (length b0) w) (b0 ++ bs ++ b') dg dt items)
    | DErr => go (body ++ rest) last (mkt (KEnc raw uni (length b0) hex) (b0 ++ bs) dg dt items) = None
    | DKeep => exists body1 x body2, body = body1 ++ x :: body2 /\ is_blank x = true /\
                 go (body ++ rest) last (mkt (KEnc raw uni (length b0) hex) (b0 ++ bs) dg dt items) =
                 go (body2 ++ rest) x (mkt KText (b0 ++ opened (raw ++ body1) ++ [x]) dg dt items)
    end.
  Proof.
    induction body as [|x body IH]; intros rest raw uni b0 bs hex last dg dt items F.
    - cbn. exists last. rewrite !app_nil_r. reflexivity.
    - inversion F as [|? ? X F']; subst. cbn [cut_words app]. rewrite go_enc. unfold step_enc.
      destruct (is_blank x) eqn:B.
      + assert (Hx : is_hex x = false) by (unfold is_blank, is_hex, is_digit_ascii, between in *; lia).
        assert (H125 : N.eqb x 125 = false) by (unfold is_blank in B; lia).
        rewrite Hx, H125. cbn [orb andb].
        destruct hex as [|h hex].
        * cbn [decode_code]. cbn [orb]. specialize (IH rest (raw ++ [x]) uni b0 bs [] x dg dt items F').
          destruct (cut_words [] body) as [ws w]. destruct (dec_words uni ws) as [b'| |].
          -- destruct IH as [l' IH]. exists l'. rewrite IH, <- app_assoc. reflexivity.
          -- destruct IH as (b1 & y & b2 & -> & Y & IH). exists (x :: b1), y, b2. split; [reflexivity|]. split; [exact Y|].
             rewrite IH. rewrite <- app_assoc. reflexivity.
          -- exact IH.
        * destruct (cut_words [] body) as [ws w] eqn:EC. cbn [dec_words]. rewrite decode_code_eq by discriminate.
          destruct (dec_word uni (h :: hex)) as [b1| |] eqn:D.
          -- cbn [orb]. specialize (IH rest (raw ++ [x]) uni b0 (bs ++ b1) [] x dg dt items F').
             rewrite EC in IH.
             rewrite <- (app_assoc b0 bs b1).
             destruct (dec_words uni ws) as [b'| |].
             ++ destruct IH as [l' IH]. exists l'. rewrite IH. rewrite <- !app_assoc. reflexivity.
             ++ destruct IH as (c1 & y & c2 & -> & Y & IH). exists (x :: c1), y, c2. split; [reflexivity|]. split; [exact Y|].
                rewrite IH. rewrite <- app_assoc. reflexivity.
             ++ exact IH.
          -- cbn [orb]. exists [], x, body. split; [reflexivity|]. split; [exact B|]. rewrite app_nil_r.
             unfold keep. rewrite firstn_app, firstn_all, Nat.sub_diag, firstn_O, app_nil_r. reflexivity.
          -- reflexivity.
      + assert (Hx : is_hex x = true) by (unfold encb in X; rewrite B, orb_false_r in X; exact X).
        rewrite Hx. specialize (IH rest (raw ++ [x]) uni b0 bs (hex ++ [x]) x dg dt items F').
        destruct (cut_words (hex ++ [x]) body) as [ws w]. destruct (dec_words uni ws) as [b'| |].
        * destruct IH as [l' IH]. exists l'. rewrite IH, <- app_assoc. reflexivity.
        * destruct IH as (b1 & y & b2 & -> & Y & IH). exists (x :: b1), y, b2. split; [reflexivity|]. split; [exact Y|].
          rewrite IH. rewrite <- app_assoc. reflexivity.
        * exact IH.
  Qed.

  Lemma encb_plain body : Forall (fun x => encb x = true) body -> Forall (fun x => x <> 36%N) body.
  Proof.
    intro F. eapply Forall_impl; [|exact F]. cbn. intros a H ->. discriminate.
  Qed.
  Lemma keyword_alpha n uni : teqb_ic n (keyword uni) = true -> Forall (fun x => is_alpha_ascii x = true) n.
  Proof.
    intro H. unfold teqb_ic in H. apply teqb_spec in H.
    assert (A : Forall (fun x => is_alpha_ascii x = true) (lower_text (keyword uni))) by (destruct uni; repeat constructor).
    rewrite <- H in A. clear H. unfold lower_text in A. apply Forall_map in A. eapply Forall_impl; [|exact A]. cbn.
    intro a. unfold lower_ascii, is_alpha_ascii, is_upper_ascii, is_lower_ascii, between. destruct (N.leb 65 a && N.leb a 90) eqn:E; [reflexivity|].
    rewrite E. auto.
  Qed.
  Lemma enc_at_intro n uni s body r : teqb_ic n (keyword uni) = true -> span encb s = (body, r) ->
    enc_at (opened n ++ 58%N :: s) = Some (uni, body, r).
  Proof.
    intros K E. unfold enc_at, opened. cbn [app after_open]. rewrite !N.eqb_refl. cbn [andb].
    rewrite span_intro by (try exact (keyword_alpha n uni K); reflexivity). cbn [after]. rewrite N.eqb_refl.
    change (fun c : N => is_hex c || is_blank c) with encb. rewrite E.
    destruct (teqb_ic n (lit "hex")) eqn:H1.
    - destruct uni; [|reflexivity]. pose proof (teqb_ic_keyword n true false K H1). discriminate.
    - destruct uni; cbn [keyword] in K; [rewrite K; reflexivity|congruence].
  Qed.

  Lemma enc_case s b n (uni : bool) dg dt items last :
    (forall s', length s' < length s -> T s') -> Forall flat items ->
    name_span false (n ++ 58%N :: s) = (n, 58%N :: s) -> has_dot n = false ->
    teqb_ic n (if uni then lit "unicode" else lit "hex") = true ->
    regular (opened n ++ 58%N :: s) ->
    adds L c (go s last (mkt (KEnc (n ++ [58%N]) uni (length b) []) b dg dt items)) items (Mo b (opened n ++ 58%N :: s)).
  Proof.
    intros IH F E D K HQ. change (teqb_ic n (keyword uni) = true) in K.
    destruct (span encb s) as [body r] eqn:ES. pose proof (span_app _ _ _ _ ES) as Es. pose proof (span_all _ _ _ _ ES) as FB.
    pose proof (enc_at_intro n uni s body r K ES) as EA.
    destruct (HQ [] _ eq_refl) as [HL HO]. unfold late_overflow in HL. unfold open_error in HO. rewrite EA in HL, HO.
    assert (HQr : regular r).
    { clear -HQ Es. subst s. intros pre x ->. apply (HQ (opened n ++ 58%N :: body ++ pre)). rewrite <- !app_assoc. cbn [app]. rewrite <- app_assoc. reflexivity. }
    assert (Hpl : forall w1 w2, body = w1 ++ w2 -> Forall (fun x => x <> 36%N) (n ++ 58%N :: w1)).
    { intros w1 w2 Ew. apply Forall_app. split; [apply ok_plain, (nspan_ok _ _ _ _ E)|]. constructor; [discriminate|].
      apply encb_plain in FB. rewrite Ew in FB. apply Forall_app in FB as [FB _]. exact FB. }
    assert (Stay : forall w1 w2, stays (opened n ++ 58%N :: s) -> body = w1 ++ w2 ->
              Mo b (opened n ++ 58%N :: s) = Mo (b ++ opened (n ++ 58%N :: w1)) (w2 ++ r)).
    { intros w1 w2 St Ew. rewrite Es, Ew in *. rewrite <- app_assoc in *.
      change (opened n ++ 58%N :: w1 ++ w2 ++ r) with (opened n ++ (58%N :: w1) ++ (w2 ++ r)) in *.
      assert (Eo : opened n ++ (58%N :: w1) ++ w2 ++ r = opened (n ++ 58%N :: w1) ++ w2 ++ r)
        by (unfold opened; cbn [app]; rewrite <- !app_assoc; reflexivity).
      rewrite Eo in *. apply Mo_map, decode_open; [exact St|]. apply (Hpl w1 w2 eq_refl). }
    pose proof (enc_loop body r (n ++ [58%N]) uni b [] [] last dg dt items FB) as EL.
    rewrite app_nil_r in EL. cbn [app] in EL. rewrite <- Es in EL.
    assert (Ecodes : codes body = let (ws, w) := cut_words [] body in ws ++ match w with [] => [] | _ => [w] end) by reflexivity.
    destruct (cut_words [] body) as [ws w] eqn:EC. cbn [fst] in HO.
    assert (Enc : encoded (opened n ++ 58%N :: s) =
                  match after 125 r, codes body with Some r', _ :: _ => Some (dec_words uni (codes body), r') | _, _ => None end)
      by (unfold encoded; rewrite EA; reflexivity).
    assert (Keepg : forall x r' b' d1 d2, r = x :: r' -> b' = b -> stays (opened n ++ 58%N :: s) ->
               adds L c (go r' x (keep b' ((n ++ [58%N]) ++ body) x items d1 d2)) items (Mo b (opened n ++ 58%N :: s))).
    { intros x r' b' d1 d2 Er -> St. rewrite (Stay body [] St ltac:(rewrite app_nil_r; reflexivity)). cbn [app].
      rewrite <- app_assoc. cbn [app]. rewrite Er.
      apply (keep_go L resolve c true add Mo regular regular_tail Mo_byte); auto.
      - intros s' Hs'. apply IH. rewrite Es, Er, app_length. cbn [length]. lia.
      - rewrite <- Er. exact HQr. }
    assert (Tnext : forall r' b' d1 d2, r = 125%N :: r' -> Mo b (opened n ++ 58%N :: s) = Mo b' r' ->
               adds L c (go r' 125%N (mkt KText b' d1 d2 items)) items (Mo b (opened n ++ 58%N :: s))).
    { intros r' b' d1 d2 Er ->. apply (IH r' ltac:(rewrite Es, Er, app_length; cbn [length]; lia) 125%N b' [] b').
      - right. repeat split. discriminate.
      - exact F.
      - cbn [app]. apply (regular_tail 125%N). rewrite <- Er. exact HQr. }
    assert (Dec : forall r' x, r = 125%N :: r' -> encoded (opened n ++ 58%N :: s) = Some (DOk x, r') ->
               Mo b (opened n ++ 58%N :: s) = Mo (b ++ x) r').
    { intros r' x _ Ee. unfold opened in *. cbn [app] in *. unfold Mo. rewrite decode_cons, Ee.
      destruct (decode r') as [d|]; [|reflexivity]. cbn [option_map]. rewrite app_assoc. reflexivity. }
    assert (Err : forall r', encoded (opened n ++ 58%N :: s) = Some (DErr, r') -> Mo b (opened n ++ 58%N :: s) = None).
    { intros r' Ee. unfold opened in *. cbn [app] in *. unfold Mo. rewrite decode_cons, Ee. reflexivity. }
    destruct (dec_words uni ws) as [b'| |] eqn:DW.
    - destruct EL as [last' EL]. rewrite EL. clear EL. cbn [app]. destruct r as [|x r].
      + cbn [tok_go]. unfold tok_end. cbn [mkt k_st k_buf k_items k_digits k_dots].
        rewrite firstn_app, firstn_all, Nat.sub_diag, firstn_O, app_nil_r.
        assert (St : stays (opened n ++ 58%N :: s)) by (unfold stays; rewrite Enc; exact Logic.I).
        rewrite (Stay body [] St ltac:(rewrite app_nil_r; reflexivity)). cbn [app]. rewrite Mo_nil.
        rewrite <- app_assoc. cbn [app].
        destruct (b ++ opened (n ++ 58%N :: body)) eqn:Eb; [apply app_eq_nil in Eb as [_ Eb]; unfold opened in Eb; discriminate|].
        rewrite <- Eb. apply add_decoded_ok; [exact F|]. rewrite Eb. discriminate.
      + pose proof (span_end _ _ _ _ _ ES) as NE. unfold encb in NE. apply orb_false_elim in NE as [NH NB].
        rewrite go_enc. unfold step_enc. rewrite NH, NB. cbn [orb].
        destruct (N.eqb_spec x 125) as [->|N125].
        * cbn [after] in Enc, HL. rewrite N.eqb_refl in Enc, HL. cbn [andb].
          destruct w as [|w0 w].
          -- cbn [decode_code orb]. destruct ws as [|w1 ws].
             ++ cbn in DW. injection DW as <-. rewrite app_nil_r, Nat.eqb_refl. cbn [negb orb]. rewrite firstn_all.
                apply Keepg; [reflexivity|reflexivity|]. unfold stays. rewrite Enc, Ecodes. exact Logic.I.
             ++ assert (Hb' : b' <> []) by (apply (dec_words_some _ _ _ DW); discriminate).
                replace (Nat.eqb (length (b ++ b')) (length b)) with false
                  by (symmetry; apply Nat.eqb_neq; rewrite app_length; destruct b'; [congruence|cbn; lia]).
                cbn [orb]. apply Tnext; [reflexivity|]. apply Dec; [reflexivity|]. rewrite Enc, Ecodes, app_nil_r, DW. reflexivity.
          -- rewrite decode_code_eq by discriminate. destruct (dec_word uni (w0 :: w)) as [y| |] eqn:DL.
             ++ assert (Hy : y <> []) by (apply (dec_word_some _ _ _ DL)).
                replace (Nat.eqb (length ((b ++ b') ++ y)) (length b)) with false
                  by (symmetry; apply Nat.eqb_neq; rewrite !app_length; destruct y; [congruence|cbn; lia]).
                cbn [orb]. apply Tnext; [reflexivity|]. rewrite <- app_assoc. apply Dec; [reflexivity|].
                rewrite Enc, Ecodes, dec_words_app, DW, DL. destruct (ws ++ [w0 :: w]) eqn:Ew; [destruct ws; discriminate|reflexivity].
             ++ destruct ws as [|w1 ws]; [|cbn beta iota in HL; rewrite DW in HL; discriminate].
                cbn in DW. injection DW as <-. rewrite app_nil_r, Nat.eqb_refl.
                cbn [negb orb andb]. rewrite firstn_all. apply Keepg; [reflexivity|reflexivity|].
                unfold stays. rewrite Enc, Ecodes. cbn [app dec_words]. rewrite DL. exact Logic.I.
             ++ rewrite (Err r); [exact Logic.I|]. rewrite Enc, Ecodes, dec_words_app, DW, DL.
                destruct (ws ++ [w0 :: w]) eqn:Ew; [destruct ws; discriminate|reflexivity].
        * apply Keepg; [reflexivity| |].
          -- rewrite firstn_app, firstn_all, Nat.sub_diag, firstn_O, app_nil_r. reflexivity.
          -- unfold stays. rewrite Enc, (after_not _ _ _ N125). exact Logic.I.
    - destruct EL as (b1 & x & b2 & Eb & X & EL). rewrite EL.
      assert (St : stays (opened n ++ 58%N :: s)).
      { unfold stays. rewrite Enc, Ecodes. destruct (after 125 r); [|exact Logic.I].
        destruct (ws ++ match w with [] => [] | _ :: _ => [w] end) eqn:Ew; [exact Logic.I|]. rewrite <- Ew. destruct w.
        - rewrite app_nil_r, DW. exact Logic.I.
        - rewrite dec_words_app, DW. exact Logic.I. }
      rewrite (Stay b1 (x :: b2) St Eb). cbn [app].
      assert (Nx : x <> 36%N) by (unfold is_blank in X; lia).
      rewrite Mo_byte by (apply plain_at_1, Nx). rewrite <- !app_assoc. cbn [app].
      apply (IH (b2 ++ r) ltac:(rewrite Es, Eb, !app_length; cbn [length]; lia) x _ []).
      + right. split; [exact Nx|]. split; [reflexivity|]. try reflexivity; unfold opened; cbn [app]; rewrite <- !app_assoc; reflexivity.
      + exact F.
      + cbn [app]. clear -HQ Es Eb. subst s body. intros pre y Ey.
        apply (HQ (opened n ++ 58%N :: b1 ++ x :: pre)). rewrite <- !app_assoc. cbn [app]. rewrite <- app_assoc. cbn [app]. rewrite Ey.
        reflexivity.
    - rewrite EL. destruct (after 125 r) as [r'|] eqn:Ar; [|discriminate].
      rewrite (Err r'); [exact Logic.I|]. rewrite Enc, Ecodes.
      destruct (ws ++ match w with [] => [] | _ :: _ => [w] end) eqn:Ew.
      + apply app_eq_nil in Ew as [-> _]. discriminate.
      + rewrite <- Ew. destruct w.
        * rewrite app_nil_r, DW. reflexivity.
        * rewrite dec_words_app, DW. reflexivity.
  Qed.

  Lemma outer_ok bs : regular bs ->
    adds L c (go bs 0%N (mkt KText [] true false [])) [] (Mo [] bs).
  Proof.
    intro HQ.
    refine (loop_ok L resolve c true add (fun b => render [] (pieces b)) Mo regular (add_decoded_ok L resolve c) eq_refl
              regular_tail Mo_nil Mo_byte Mo_ref (fun b n s E _ H => Mo_bad b n s E (H eq_refl)) Mo_literal
              (fun _ s b n uni dg dt items last => enc_case s b n uni dg dt items last)
              (length bs) bs (le_n _) 0%N [] [] [] true false [] _ (Forall_nil _) HQ).
    right. repeat split. discriminate.
  Qed.

  Theorem tokenize_ok bs : regular bs ->
    option_map (fun v => v_text L (eval_value L c v)) (tokenize_string L resolve bs) = string_meaning L resolve c bs.
  Proof.
    intro HQ. pose proof (outer_ok bs HQ) as H. unfold tokenize_string, tok_run, string_meaning. unfold Mo in H. cbn [app] in H.
    unfold adds in H. destruct (go bs 0%N (mkt KText [] true false [])) as [l|]; cbn [option_map].
    - destruct (match decode bs with Some d => render [] (pieces d) | None => None end) as [t|]; [|contradiction].
      destruct H as [F E]. rewrite pack_text by exact F. f_equal. exact E.
    - destruct (match decode bs with Some d => render [] (pieces d) | None => None end) as [t|]; [contradiction|reflexivity].
  Qed.
End Outer.
