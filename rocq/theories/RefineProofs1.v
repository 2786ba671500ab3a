(** The compiler commutes with changes of single instructions. *)
From Coq Require Import Lia.
From Verif Require Import Base Lib Value Comparator Expr Sieve Compile RefineSpec.
Import ListNotations.
Local Open Scope list_scope.

Definition kind (i : instruction) : nat :=
  match i with
  | IxTest _ | IxEval _ => 1 | IxJz _ => 2 | IxJnz _ => 3 | IxJmp _ => 4 | IxForEveryPart _ => 5 | IxWhile _ _ => 6 | IxRequire _ => 7
  | _ => 0
  end.
Definition fixed (i : instruction) : bool :=
  match i with
  | IxTest TeTrue | IxTest TeFalse | IxJz _ | IxJnz _ | IxJmp _ | IxForEveryPart _ | IxForEveryPartPush | IxForEveryPartPop _
  | IxReturn | IxRequire _ | IxClear _ _ _ => true
  | _ => false
  end.
Definition only_clear (k : token) : Prop := match k with KClose (Some i) => fixed i = true | _ => True end.

Lemma Forall2_len {A B} (R : A -> B -> Prop) l l' : Forall2 R l l' -> length l = length l'.
Proof. induction 1; cbn; auto. Qed.

Section Change.
  Variable G : nat -> instruction -> instruction.
  Variable H : list instr -> list instr.
  Hypothesis G_fixed : forall p i, fixed i = true -> G p i = i.
  Hypothesis G_kind : forall p i, kind (G p i) = kind i.
  Hypothesis G_while : forall p e t, G p (IxWhile e t) = IxWhile (H e) t.
  Hypothesis G_test : forall p t, exists t', G p (IxTest t) = IxTest t'.
  Hypothesis G_not : forall p i, G p (set_not i) = set_not (G p i).
  Notation like := (tok_like (fun i i' => exists p, i' = G p i)).

  Fixpoint gm (p : nat) (l : list instruction) : list instruction :=
    match l with [] => [] | i :: l' => G p i :: gm (S p) l' end.
  Lemma gm_app a : forall p b, gm p (a ++ b) = gm p a ++ gm (p + length a) b.
  Proof.
    induction a as [|i a IH]; intros p b; cbn; [now rewrite Nat.add_0_r|]. rewrite IH. now rewrite <- plus_n_Sm.
  Qed.
  Lemma gm_length l : forall p, length (gm p l) = length l.
  Proof. induction l; cbn; auto. Qed.
  Lemma gm_update f : (forall p i, G p (f i) = f (G p i)) -> forall l n p, gm p (update n f l) = update n f (gm p l).
  Proof. intros C. induction l as [|i l IH]; intros [|n] p; cbn; rewrite ?C, ?IH; reflexivity. Qed.
  Lemma gm_patch f : (forall p i, G p (f i) = f (G p i)) -> forall ps l p, gm p (patch f ps l) = patch f ps (gm p l).
  Proof.
    intros C. unfold patch. induction ps as [|n ps IH]; intros l p; cbn; [reflexivity|]. now rewrite IH, gm_update.
  Qed.
  Lemma gm_last l : forall p, l <> [] -> exists q, last (gm p l) IxStop = G q (last l IxStop).
  Proof.
    induction l as [|i [|j l] IH]; intros p N; [congruence|cbn; eauto|]. destruct (IH (S p)) as (q & E); [discriminate|]. exists q. exact E.
  Qed.
  Lemma is_test_kind i : is_test i = Nat.eqb (kind i) 1.
  Proof. destruct i; reflexivity. Qed.
  Lemma gm_test l p : is_test (last (gm p l) IxStop) = is_test (last l IxStop).
  Proof.
    destruct l as [|i l]; [reflexivity|]. destruct (gm_last (i :: l) p) as (q & ->); [discriminate|]. now rewrite !is_test_kind, G_kind.
  Qed.
  Lemma gm_fixed l p : forallb fixed l = true -> gm p l = l.
  Proof.
    revert p. induction l as [|i l IH]; intros p F; [reflexivity|]. cbn in *. apply andb_prop in F. destruct F. now rewrite G_fixed, IH.
  Qed.

  Ltac commute i :=
    intros p i; pose proof (G_kind p i) as D; destruct i; cbn [to_jmp to_jz to_cond to_for to_while kind] in *;
    rewrite ?G_while, ?(G_fixed p (IxJmp _) eq_refl), ?(G_fixed p (IxJz _) eq_refl), ?(G_fixed p (IxJnz _) eq_refl),
      ?(G_fixed p (IxForEveryPart _) eq_refl), ?(G_fixed p (IxRequire _) eq_refl);
    cbn; try reflexivity; match goal with D : kind ?x = _ |- _ => destruct x; cbn in D |- *; congruence end.
  Lemma to_jmp_g t : forall p i, G p (to_jmp t i) = to_jmp t (G p i).
  Proof. commute i. Qed.
  Lemma to_jz_g t : forall p i, G p (to_jz t i) = to_jz t (G p i).
  Proof. commute i. Qed.
  Lemma to_cond_g t : forall p i, G p (to_cond t i) = to_cond t (G p i).
  Proof. commute i. Qed.
  Lemma to_for_g t : forall p i, G p (to_for t i) = to_for t (G p i).
  Proof. commute i. Qed.
  Lemma to_while_g t : forall p i, G p (to_while t i) = to_while t (G p i).
  Proof. commute i. Qed.
  Definition req (caps : list capability) (i : instruction) : instruction := match i with IxRequire l => IxRequire (l ++ caps) | _ => i end.
  Lemma req_g caps : forall p i, G p (req caps i) = req caps (G p i).
  Proof. unfold req. commute i. Qed.

  Lemma like_word k k' : like k k' -> is_word k' = is_word k.
  Proof. destruct 1; reflexivity. Qed.
  Lemma closings_split n : forall r r1, closings n r = Some r1 -> exists u, r = u ++ r1 /\ forall r2, closings n (u ++ r2) = Some r2.
  Proof.
    induction n as [|n IH]; intros r r1 E; cbn in E.
    - injection E as ->. exists []. auto.
    - destruct r as [|[] r]; try discriminate. destruct (IH _ _ E) as (u & -> & X). exists (KPClose :: u). auto.
  Qed.
  Lemma closings_tokens n : forall u r2, closings n (u ++ r2) = Some r2 -> Forall2 like u u.
  Proof.
    induction n as [|n IH]; intros u r2 E; cbn in E.
    - injection E as E. assert (u = []) as ->; [|constructor]. apply (f_equal (@length token)) in E. rewrite app_length in E. destruct u; [auto|cbn in E; lia].
    - destruct u as [|t u]; cbn in E.
      + constructor.
      + destruct t; try discriminate. constructor; [now constructor|]. eapply IH. exact E.
  Qed.

  Variable umax : nat.
  Variable lim : limits.

  Lemma parse_test_change : forall fuel r code b stk n code1 r1, parse_test umax lim fuel r code b stk n = POk code1 r1 ->
    exists u u', r = u ++ r1 /\ u <> [] /\ Forall2 like u u' /\
      forall r2, parse_test umax lim fuel (u' ++ r2) (gm 0 code) b stk n = POk (gm 0 code1) r2.
  Proof.
    induction fuel as [|fuel IH]; intros r code b stk n code1 r1 E; [discriminate|]. cbn [parse_test] in E.
    assert (LEAF : forall i k k' r0 n', like k k' ->
      r = k :: r0 ->
      match closings (t_p b) r0 with
      | None => PErr
      | Some r' => match stk with
                   | [] => POk ((code ++ [i]) ++ [IxJz umax]) r'
                   | _ => parse_test umax lim fuel r' (code ++ [i]) {| t_all := t_all b; t_not := t_not b; t_p := 0; t_jmps := t_jmps b |} stk n'
                   end
      end = POk code1 r1 ->
      (forall r0', parse_test umax lim (S fuel) (k' :: r0') (gm 0 code) b stk n =
        match closings (t_p b) r0' with
        | None => PErr
        | Some r' => match stk with
                     | [] => POk ((gm 0 code ++ [G (length code) i]) ++ [IxJz umax]) r'
                     | _ => parse_test umax lim fuel r' (gm 0 code ++ [G (length code) i]) {| t_all := t_all b; t_not := t_not b; t_p := 0; t_jmps := t_jmps b |} stk n'
                     end
        end) ->
      exists u u', r = u ++ r1 /\ u <> [] /\ Forall2 like u u' /\
        forall r2, parse_test umax lim (S fuel) (u' ++ r2) (gm 0 code) b stk n = POk (gm 0 code1) r2).
    { intros i k k' r0 n' LK -> E0 ST. destruct (closings (t_p b) r0) as [r'|] eqn:C; [|discriminate].
      destruct (closings_split _ _ _ C) as (v & -> & CV). pose proof (closings_tokens _ _ _ (CV [])) as CT.
      assert (EG : gm 0 code ++ [G (length code) i] = gm 0 (code ++ [i])) by (rewrite gm_app; reflexivity).
      destruct stk as [|p0 stk0].
      - injection E0 as <- <-. exists (k :: v), (k' :: v). repeat split; [discriminate|constructor; auto|].
        intro r2. cbn [app]. rewrite ST, CV, EG. rewrite (gm_app (code ++ [i])). cbn [gm]. now rewrite G_fixed.
      - destruct (IH _ _ _ _ _ _ _ E0) as (u & u' & -> & N & F & X). exists (k :: v ++ u), (k' :: v ++ u').
        split; [cbn; now rewrite app_assoc|]. split; [discriminate|]. split; [constructor; [auto|now apply Forall2_app]|].
        intro r2. cbn [app]. rewrite ST, <- app_assoc, CV, EG. apply X. }
    assert (GO : forall k r0 code0 b0 stk0 n0, like k k -> r = k :: r0 ->
      parse_test umax lim fuel r0 code0 b0 stk0 n0 = POk code1 r1 ->
      (forall x x', r0 = x ++ r1 -> x <> [] -> Forall2 like x x' -> forall r2, parse_test umax lim (S fuel) (k :: x' ++ r2) (gm 0 code) b stk n =
         parse_test umax lim fuel (x' ++ r2) (gm 0 code0) b0 stk0 n0) ->
      exists u u', r = u ++ r1 /\ u <> [] /\ Forall2 like u u' /\
        forall r2, parse_test umax lim (S fuel) (u' ++ r2) (gm 0 code) b stk n = POk (gm 0 code1) r2).
    { intros k r0 code0 b0 stk0 n0 LK -> E0 ST. destruct (IH _ _ _ _ _ _ _ E0) as (u & u' & -> & N & F & X).
      exists (k :: u), (k :: u'). repeat split; [discriminate|constructor; auto|]. intro r2. cbn [app]. rewrite (ST u u'); auto. }
    assert (PW : forall x x' r2, x <> [] -> Forall2 like x x' -> peek_word (x ++ r1) = peek_word (x' ++ r2)).
    { intros x x' r2 N F. destruct F as [|a a' y y' Ha]; [congruence|]. cbn. symmetry. now apply like_word. }
    assert (TF : forall q (c : bool), G q (IxTest (if c then TeFalse else TeTrue)) = IxTest (if c then TeFalse else TeTrue)).
    { intros q []; now apply G_fixed. }
    assert (TF' : forall q (c : bool), G q (IxTest (if c then TeTrue else TeFalse)) = IxTest (if c then TeTrue else TeFalse)).
    { intros q []; now apply G_fixed. }
    destruct r as [|k r]; [discriminate|]. destruct k; try discriminate.
    - (* not *) destruct (peek_word r) eqn:W; [|discriminate]. eapply (GO KNot); [now apply like_same|reflexivity|exact E|].
      intros x x' -> N F r2. cbn [parse_test]. now rewrite <- (PW x x' r2 N F), W.
    - (* anyof *) destruct (Nat.ltb _ _) eqn:L; [|discriminate]. destruct r as [|[] r]; try discriminate.
      destruct (IH _ _ _ _ _ _ _ E) as (u & u' & -> & N & F & X). exists (KAnyOf :: KPOpen :: u), (KAnyOf :: KPOpen :: u').
      repeat split; [discriminate|repeat (constructor; [now apply like_same|]); auto|]. intro r2. cbn [app parse_test]. rewrite L. apply X.
    - (* allof *) destruct (Nat.ltb _ _) eqn:L; [|discriminate]. destruct r as [|[] r]; try discriminate.
      destruct (IH _ _ _ _ _ _ _ E) as (u & u' & -> & N & F & X). exists (KAllOf :: KPOpen :: u), (KAllOf :: KPOpen :: u').
      repeat split; [discriminate|repeat (constructor; [now apply like_same|]); auto|]. intro r2. cbn [app parse_test]. rewrite L. apply X.
    - (* true *) eapply (LEAF _ KTrue KTrue); [now apply like_same|reflexivity|exact E|]. intros r0'. cbn [parse_test]. now rewrite TF.
    - (* false *) eapply (LEAF _ KFalse KFalse); [now apply like_same|reflexivity|exact E|]. intros r0'. cbn [parse_test]. now rewrite TF'.
    - (* a test *) eapply (LEAF _ _ (KLeaf (G (length code) i))); [apply like_leaf; eauto|reflexivity|exact E|].
      intros r0'. cbn [parse_test]. destruct n; [rewrite G_not|]; reflexivity.
    - (* comma *) destruct stk as [|p0 stk0]; [discriminate|]. destruct (is_test _) eqn:T; [|discriminate].
      destruct (peek_word r) eqn:W; [|discriminate]. cbn [andb] in E. eapply (GO KComma); [now apply like_same|reflexivity|exact E|].
      intros x x' -> N F r2. cbn [parse_test]. rewrite gm_test, T, <- (PW x x' r2 N F), W, gm_length, gm_app. cbn [andb gm].
      destruct (t_all b); rewrite G_fixed; reflexivity.
    - (* an opening parenthesis *) eapply (GO KPOpen); [now apply like_same|reflexivity|exact E|]. reflexivity.
    - (* a closing parenthesis *) destruct (t_p b) as [|m] eqn:TP.
      + destruct stk as [|p0 stk0]; [discriminate|]. destruct stk0 as [|p1 stk1].
        * injection E as <- <-. exists [KPClose], [KPClose]. repeat split; [discriminate|constructor; [now apply like_same|constructor]|].
          intro r2. cbn [app parse_test]. rewrite TP, gm_length, gm_app, gm_patch by apply to_cond_g. cbn [gm].
          rewrite G_fixed by reflexivity. reflexivity.
        * eapply (GO KPClose); [now apply like_same|reflexivity|exact E|]. intros. cbn [parse_test]. rewrite TP, gm_length, gm_patch by apply to_cond_g. reflexivity.
      + eapply (GO KPClose); [now apply like_same|reflexivity|exact E|]. intros. cbn [parse_test]. now rewrite TP.
  Qed.

  Definition gst (s : cst) : cst := with_code (gm 0 (c_code s)) s.
  Lemma gst_emit l s l' : gm (length (c_code s)) l = l' -> gst (emit l s) = emit l' (gst s).
  Proof. intros <-. unfold gst, emit, with_code. cbn. now rewrite gm_app. Qed.
  Lemma gst_open t l s : open lim t l (gst s) = option_map gst (open lim t l s).
  Proof. unfold open, gst. cbn [with_code c_stack c_code c_blk c_last c_includes]. rewrite gm_length. destruct (Nat.ltb (length (c_stack s)) _); reflexivity. Qed.
  Lemma gst_blocks bs s : gst (with_blocks bs s) = with_blocks bs (gst s).
  Proof. now destruct bs. Qed.
  Lemma open_keeps t l s s' : open lim t l s = Some s' -> open lim t l (gst s) = Some (gst s').
  Proof. intro E. now rewrite gst_open, E. Qed.

  (** What a command looks at in the tokens after it *)
  Definition else_next (r : list token) : bool := match r with KElsIf :: _ | KElse :: _ => true | _ => false end.
  Lemma close_else o r r' s : else_next r = else_next r' -> close umax o r s = close umax o r' s.
  Proof.
    intro E. unfold close. destruct (c_stack s); [reflexivity|]. destruct (b_type (c_blk s)); try reflexivity.
    all: destruct r as [|[] r]; destruct r' as [|[] r']; cbn in E; try discriminate; reflexivity.
  Qed.
  Lemma like_else r r' : Forall2 like r r' -> else_next r' = else_next r.
  Proof. destruct 1 as [|k k' r r' X]; [reflexivity|]. destruct X; reflexivity. Qed.
  Lemma gst_close o r s s' : match o with Some i => fixed i = true | None => True end -> close umax o r s = Some s' ->
    close umax o r (gst s) = Some (gst s').
  Proof.
    intros O E. unfold close in *. cbn [gst with_code c_stack c_blk c_last c_includes c_code] in *.
    destruct (c_stack s) as [|prev stk]; [discriminate|].
    assert (EC : gm 0 (c_code s) ++ match o with Some i => [i] | None => [] end = gm 0 (c_code s ++ match o with Some i => [i] | None => [] end)).
    { rewrite gm_app. f_equal. destruct o; cbn; [now rewrite G_fixed|reflexivity]. }
    rewrite EC. set (code := c_code s ++ _) in *. clearbody code. clear EC.
    assert (EJ : forall n, gm 0 code ++ [IxJmp n] = gm 0 (code ++ [IxJmp n])).
    { intro n. rewrite gm_app. cbn. now rewrite G_fixed. }
    destruct (b_type (c_blk s)).
    - injection E as <-. reflexivity.
    - destruct r as [|[] r]; injection E as <-; unfold gst, with_code; cbn; rewrite ?EJ, ?gm_length, ?gm_patch, ?gm_update by auto using to_jmp_g, to_jz_g;
        reflexivity.
    - destruct r as [|[] r]; injection E as <-; unfold gst, with_code; cbn; rewrite ?EJ, ?gm_length, ?gm_patch, ?gm_update by auto using to_jmp_g, to_jz_g;
        reflexivity.
    - injection E as <-; unfold gst, with_code; cbn; rewrite ?EJ, ?gm_length, ?gm_patch by auto using to_jmp_g. reflexivity.
    - injection E as <-; unfold gst, with_code; cbn; rewrite ?EJ, ?gm_length, ?gm_patch, ?gm_update by auto using to_jmp_g, to_for_g. reflexivity.
    - injection E as <-; unfold gst, with_code; cbn; rewrite ?EJ, ?gm_length, ?gm_patch, ?gm_update by auto using to_jmp_g, to_while_g. reflexivity.
  Qed.

  Lemma test_then_change t r s r1 s1 : test_then umax lim t r s = Some (r1, s1) ->
    exists u u', r = u ++ r1 /\ Forall2 like u u' /\
      forall r2, length r2 = length r1 -> test_then umax lim t (u' ++ r2) (gst s) = Some (r2, gst s1).
  Proof.
    intro E. unfold test_then in E. destruct (parse_test _ _ _ _ _ _ _) as [| |code r'] eqn:P; try discriminate.
    destruct r' as [|[] r']; try discriminate. destruct (open _ _ _ _) as [s'|] eqn:O; [|discriminate]. injection E as <- <-.
    destruct (parse_test_change _ _ _ _ _ _ _ _ P) as (u & u' & -> & N & F & X).
    exists (u ++ [KOpen]), (u' ++ [KOpen]). split; [now rewrite <- app_assoc|]. split; [apply Forall2_app; [auto|constructor; [now apply like_same|constructor]]|].
    intros r2 L. unfold test_then. rewrite <- app_assoc. cbn [app].
    replace (length (u' ++ KOpen :: r2) + 1) with (length (u ++ KOpen :: r') + 1)
      by (rewrite !app_length; cbn; rewrite (Forall2_len _ _ _ F); lia).
    cbn [gst with_code c_code]. rewrite X. pose proof (open_keeps _ _ _ _ O) as O'. unfold gst, with_code in O' |- *. cbn in O' |- *. now rewrite O'.
  Qed.

  Lemma command_change t r s r1 s1 : only_clear t -> command umax lim t r s = Some (r1, s1) ->
    exists u t' u', r = u ++ r1 /\ Forall2 like (t :: u) (t' :: u') /\
      forall r2, Forall2 like r1 r2 -> command umax lim t' (u' ++ r2) (gst s) = Some (r2, gst s1).
  Proof.
    intros OC E.
    assert (Z : forall t0 s0, like t t0 -> r = r1 ->
      (forall r2, Forall2 like r1 r2 -> command umax lim t0 r2 (gst s) = Some (r2, gst s0)) -> s1 = s0 ->
      exists u t' u', r = u ++ r1 /\ Forall2 like (t :: u) (t' :: u') /\
        forall r2, Forall2 like r1 r2 -> command umax lim t' (u' ++ r2) (gst s) = Some (r2, gst s1)).
    { intros t0 s0 LK -> ST ->. exists [], t0, []. split; [reflexivity|]. split; [constructor; [exact LK|constructor]|]. exact ST. }
    assert (T : forall bt s0, like t t -> test_then umax lim bt r s0 = Some (r1, s1) ->
      (forall r', command umax lim t r' (gst s) = test_then umax lim bt r' (gst s0)) ->
      exists u t' u', r = u ++ r1 /\ Forall2 like (t :: u) (t' :: u') /\
        forall r2, Forall2 like r1 r2 -> command umax lim t' (u' ++ r2) (gst s) = Some (r2, gst s1)).
    { intros bt s0 LK ET ST. destruct (test_then_change _ _ _ _ _ ET) as (u & u' & -> & F & X). exists u, t, u'.
      split; [reflexivity|]. split; [constructor; auto|]. intros r2 F2. rewrite ST. apply X. symmetry. exact (Forall2_len _ _ _ F2). }
    assert (O : forall t0 bt l s0, like t t0 -> forall r0, r = KOpen :: r0 -> option_map (fun s => (r0, s)) (open lim bt l s0) = Some (r1, s1) ->
      (forall r2, Forall2 like r1 r2 -> command umax lim t0 (KOpen :: r2) (gst s) = option_map (fun s => (r2, s)) (open lim bt l (gst s0))) ->
      exists u t' u', r = u ++ r1 /\ Forall2 like (t :: u) (t' :: u') /\
        forall r2, Forall2 like r1 r2 -> command umax lim t' (u' ++ r2) (gst s) = Some (r2, gst s1)).
    { intros t0 bt l s0 LK r0 -> EO ST. destruct (open lim bt l s0) as [s'|] eqn:EO'; [|discriminate]. injection EO as <- <-.
      exists [KOpen], t0, [KOpen]. split; [reflexivity|]. split; [constructor; [exact LK|constructor; [now apply like_same|constructor]]|].
      intros r2 F2. cbn [app]. rewrite ST by exact F2. erewrite open_keeps; [|exact EO']. reflexivity. }
    destruct t; cbn [command] in E; try discriminate.
    - eapply (T BIf); [now apply like_same|exact E|]. reflexivity.
    - destruct (c_last s) eqn:CL; try discriminate; (eapply T; [now apply like_same|exact E|]); intros r'; cbn [command gst with_code c_last];
        rewrite CL; reflexivity.
    - destruct (c_last s) eqn:CL; try discriminate; (destruct r as [|[] r]; try discriminate); (eapply O; [now apply like_same|reflexivity|exact E|]);
        intros r' _; cbn [command gst with_code c_last]; rewrite CL; reflexivity.
    - destruct (Nat.eqb _ _) eqn:E1; [discriminate|]. destruct (match label with Some _ => _ | None => _ end) eqn:E2; [discriminate|].
      destruct r as [|[] r]; try discriminate. eapply O; [now apply like_same|reflexivity|exact E|]. intros r' _. cbn [command gst with_code c_stack].
      rewrite E1, E2. erewrite <- gst_emit; [reflexivity|]. cbn [gm]. now rewrite !G_fixed.
    - destruct r as [|[] r]; try discriminate. eapply (O (KWhile (H e))); [apply like_while; exists 0; now rewrite G_while|reflexivity|exact E|].
      intros r' _. cbn [command]. erewrite <- gst_emit; [reflexivity|]. cbn [gm]. now rewrite G_while.
    - destruct (do_break umax label s) as [s'|] eqn:D; [|discriminate]. injection E as <- <-.
      eapply Z; [now apply like_same|reflexivity| |reflexivity]. intros r2 _. cbn [command]. unfold do_break in *. cbn [gst with_code c_code blocks c_blk c_stack].
      rewrite !gm_length. destruct label as [n|].
      + unfold blocks in *. cbn [c_blk c_stack] in *. destruct (find_label _ _ _ _) as [[pops bs]|]; [|discriminate]. injection D as <-. cbn [option_map].
        rewrite <- gst_blocks. erewrite <- gst_emit; [reflexivity|]. cbn [gm]. now rewrite !G_fixed.
      + unfold blocks in *. cbn [c_blk c_stack] in *. destruct (find_loop _ _) as [[f bs]|]; [|discriminate]. injection D as <-. cbn [option_map].
        rewrite <- gst_blocks. erewrite <- gst_emit; [reflexivity|]. now destruct f; apply gm_fixed.
    - assert (BL : blocks (gst s) = blocks s) by reflexivity.
      assert (CF : forall l f is_, do_continue f l = (2, is_) -> forallb fixed is_ = true).
      { induction l as [|bl l IHl]; intros f is_ DC; cbn in DC; [now injection DC as _ <-|].
        destruct (b_type bl); try (eapply IHl; eassumption); destruct (Nat.eqb f 1); try (eapply IHl; eassumption); now injection DC as <-. }
      destruct (do_continue 0 (blocks s)) as [m is_] eqn:D. destruct m as [|[|[|m]]]; try discriminate. injection E as <- <-.
      eapply Z; [now apply like_same|reflexivity| |reflexivity]. intros r2 _. cbn [command]. rewrite BL, D.
      erewrite <- gst_emit; [reflexivity|]. eapply gm_fixed, CF, D.
    - injection E as <- <-. eapply Z; [now apply like_same|reflexivity| |reflexivity]. intros r2 _. cbn [command]. unfold do_return.
      assert (BL : blocks (gst s) = blocks s) by reflexivity. rewrite BL.
      destruct (length (filter is_for (blocks s))); (erewrite <- gst_emit; [reflexivity|now apply gm_fixed]).
    - destruct (Nat.ltb _ _) eqn:L; [|discriminate]. injection E as <- <-.
      eapply (Z (KInclude (G (length (c_code s)) i))); [apply like_include; eauto|reflexivity| |reflexivity]. intros r2 _. cbn [command gst with_code c_includes c_code].
      rewrite L. unfold gst, with_code. cbn. now rewrite gm_app.
    - injection E as <- <-. eapply Z; [now apply like_same|reflexivity| |reflexivity]. intros r2 _. cbn [command]. f_equal. f_equal.
      unfold do_require. destruct caps; [reflexivity|]. cbn [gst with_code c_blk c_code]. destruct (b_require (c_blk s)) as [q|].
      + fold (req (c :: caps)). unfold gst, with_code. cbn. rewrite gm_update; [reflexivity|]. apply req_g.
      + rewrite gm_length. rewrite (gst_emit _ _ [IxRequire (c :: caps)]); [reflexivity|now apply gm_fixed].
    - injection E as <- <-. eapply (Z (KAct (G (length (c_code s)) i))); [apply like_act; eauto|reflexivity| |reflexivity]. intros r2 _. cbn [command].
      erewrite <- gst_emit; reflexivity.
    - injection E as <- <-. eapply Z; [now apply like_same|reflexivity| |reflexivity]. reflexivity.
    - injection E as <- <-. destruct (G_test (length (c_code s)) t) as (t' & ET).
      eapply (Z (KVacation t' (G (S (S (length (c_code s)))) v))); [apply like_vacation; eauto|reflexivity| |reflexivity].
      intros r2 _. cbn [command]. erewrite <- gst_emit; [reflexivity|]. cbn [gm gst with_code c_code]. rewrite ET, gm_length, G_fixed by reflexivity. reflexivity.
    - destruct (close _ _ _ _) as [s'|] eqn:C; [|discriminate]. injection E as <- <-.
      eapply Z; [now apply like_same|reflexivity| |reflexivity]. intros r2 F2. cbn [command].
      rewrite (close_else _ r2 r) by (now apply like_else). erewrite gst_close; [reflexivity|exact OC|exact C].
  Qed.

  Lemma go_change : forall fuel r s s1, Forall only_clear r -> go umax lim fuel r s = COk s1 ->
    exists r', Forall2 like r r' /\ go umax lim fuel r' (gst s) = COk (gst s1).
  Proof.
    induction fuel as [|fuel IH]; intros r s s1 OC E.
    - destruct r; [|discriminate]. exists []. split; [constructor|]. cbn in *. destruct (c_stack s); [|discriminate]. now injection E as <-.
    - destruct r as [|t r]; [exists []; split; [constructor|]; cbn in *; destruct (c_stack s); [|discriminate]; now injection E as <-|].
      cbn [go] in E. destruct (command _ _ _ _ _) as [[r1 s']|] eqn:C; [|discriminate].
      destruct (command_change _ _ _ _ _ (Forall_inv OC) C) as (u & t' & u' & -> & F & X).
      destruct (IH r1 s' s1) as (r1' & F1 & X1); [|exact E|].
      { apply Forall_inv_tail in OC. now apply Forall_app in OC. }
      exists (t' :: u' ++ r1'). inversion F; subst. split; [constructor; [auto|now apply Forall2_app]|]. cbn [go]. now rewrite X.
  Qed.
End Change.
