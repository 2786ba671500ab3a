(** Every compiled script: jumps inside the code, vacation actions behind their tests,
    and regions in which a [require] has been executed that no jump enters. *)
From Coq Require Import Lia.
From Verif Require Import Base Lib Address Var Value SetVar Flags Comparator Message EditHeader
  Expr ExprTok Event Notify AddrTest Vacation Mime Sieve Utf8 Lexer Scope StringTok Run RunSpec Compile CompileSpec ParseArgs ParseBase
  Parse ParseSpec CompileProofs8 CompileProofs9 ParseCaps1 ParseCaps2 ParseGuard1 ParseGuard2 ParseGuard3 ParseGuard4.
Import ListNotations.
Local Open Scope string_scope.
Local Open Scope list_scope.

Section Main.
  Variable K : cenv.
  Variable FU : nat.
  Notation nc := (C_nocheck K).
  Notation WI := (WI K).
  Notation umax := (C_umax K).
  Notation lim := (C_lim K).

  Definition nxt (s : pst) : Prop := exists w rest, l_next (p_lex s) = TIdent w :: rest /\ go_on w = true.
  Definition MI (s : pst) : Prop := exists G l, WI G [] l s /\ (l <> [] -> nxt s).
  Lemma tr_ex {A X} (Pre : X -> pst -> Prop) (m : P A) Post : (forall x, tr (Pre x) m Post) -> tr (fun s => exists x, Pre x s) m Post.
  Proof. intros H s a s' [x Hx] E. eapply H; eauto. Qed.
  Lemma tr_lift {A B} (o : option A) (k : A -> P B) Pre Post : (forall a, tr Pre (k a) Post) -> tr Pre (bind (lift o) k) Post.
  Proof. intros H s b s' Hs E. unfold bind, lift in E. destruct o as [a|]; [|discriminate]. exact (H a s b s' Hs E). Qed.

  Lemma tr_open_all t lab : tr (FQ K (FBlock t lab)) (open_all K t lab) (fun _ => MI).
  Proof.
    unfold open_all. intros s0 a s1 (Nt & G & l & [H B] & Hl) E. unfold bind in E. unfold inside in E.
    destruct (forallb (fun p => Nat.ltb p (length (c_code (p_c s0)))) [0]) eqn:L0; [|discriminate]. cbn [forallb] in L0.
    rewrite andb_true_r in L0. apply Nat.ltb_lt in L0. unfold on_c in E. destruct (open lim t lab (p_c s0)) as [c|] eqn:O; [|discriminate].
    unfold modify in E. injection E as <- <-. cbn [w_caps w_m w_v w_c p_c p_caps].
    destruct (ci_open nc lim G (p_c s0) c (p_caps s0) t lab H Nt L0) as [X Y]; [rewrite B; exact Hl|exact O|].
    exists G, []. split; [|congruence]. split; [exact X|exact Y].
  Qed.

  Lemma clear_ok i n mv : match clear_of i n mv with Some x => harmless x /\ exts x = [] | None => True end.
  Proof. unfold clear_of. destruct (Nat.ltb 0 n); [repeat split|]. destruct (N.eqb mv 0); [exact Logic.I|repeat split]. Qed.
  Lemma tr_close_all G : tr (WI G [] []) (close_all K) (fun _ => MI).
  Proof.
    assert (S := wi_still K G [] []).
    unfold close_all. apply tr_get. intro ps. eapply tr_pre; [intros s [H _]; exact H|]. apply tr_inside. intros _.
    apply tr_get. intro t. eapply tr_pre; [intros s [H _]; exact H|]. apply tr_get. intro mv. eapply tr_pre; [intros s [H _]; exact H|].
    apply tr_get. intro v. eapply tr_pre; [intros s [H _]; exact H|]. apply tr_lift. intro vi.
    eapply tr_bind with (Mid := fun more s => WI G [] [] s /\ (more = true -> nxt s)).
    - assert (F : tr (WI G [] []) (ret false) (fun more s => WI G [] [] s /\ (more = true -> nxt s))).
      { apply tr_ret. intros s H. split; [exact H|discriminate]. }
      assert (P : tr (WI G [] []) (k <- peek K ;; ret (match k with KTok (TIdent w) => oneof ["elsif"; "else"] w | _ => false end))
        (fun more s => WI G [] [] s /\ (more = true -> nxt s))); [|destruct t; assumption].
      intros s0 a s1 H E. unfold bind in E. destruct (peek K s0) as [k s2| | |] eqn:Ep; try discriminate. injection E as <- <-.
      split; [destruct (pc_peek K _ _ _ _ eq_refl Ep); eauto|]. unfold peek in Ep. unfold nxt.
      destruct (lex_peek _ _ (p_lex s0)) as [l|tk l|e l|] eqn:Ll; try discriminate; injection Ep as <- <-; try discriminate.
      destruct tk; try discriminate. intro Hg. exists w. cbn [w_lex p_lex]. unfold lex_peek in Ll.
      destruct (l_next (p_lex s0)) as [|t0 r0] eqn:N0.
      + destruct (lex_go _ _ _ _ _ _) as [l0|t0 l0|e0 l0|]; try discriminate. injection Ll as -> <-. cbn [l_next]. exists (l_next l0). split; [reflexivity|exact Hg].
      + injection Ll as -> <-. rewrite N0. eauto.
    - intro more. intros s0 a s1 [[H B] Hn] E. unfold bind, on_c in E. destruct (close _ _ _ (p_c s0)) as [c|] eqn:Cl; [|discriminate].
      unfold modify in E. injection E as <- <-.
      destruct (ci_close nc umax G _ _ _ _ _ (clear_ok _ _ _) H B Cl) as [[G' X] Y]. exists G', (b_if (c_blk c)).
      cbn [w_caps w_m w_v w_c p_c p_caps ParseGuard4.WI]. split; [split; [exact X|reflexivity]|]. intro Nl. apply Y in Nl.
      destruct more; [|discriminate]. destruct (Hn eq_refl) as (w & r & Q1 & Q2). exists w, r. auto.
  Qed.

  Lemma tr_main_step : tr MI (main_step K FU tt) (fun r s => match r with Datatypes.inl _ => MI s | Datatypes.inr _ => exists G, WI G [] [] s end).
  Proof.
    unfold main_step.
    eapply tr_bind with (Mid := fun o s => exists G l, WI G [] l s /\ (l <> [] -> exists w, o = Some (TIdent w) /\ go_on w = true)).
    - intros s0 o s1 (G & l & H & Hl) E. exists G, l. unfold next_opt in E. split.
      + destruct (lex_next _ _ _); try discriminate; injection E as <- <-; exact H.
      + intro Nl. destruct (Hl Nl) as (w & r & Q1 & Q2). unfold lex_next in E. rewrite Q1 in E. injection E as <- <-. eauto.
    - intro o. apply tr_ex. intro G. apply tr_ex. intro l. intros s0 a s1 [H Hl]. revert s0 a s1 H.
      change (tr (WI G [] l) (match o with None => ret (Datatypes.inr tt) | Some t => reset ;; match t with
        | TIdent w => f <- command K FU w ;;
            match f with
            | FBlock t l => expect K TCurlyOpen ;; open_all K t l ;; ret (Datatypes.inl tt)
            | FEnd => expect K TSemicolon ;; ret (Datatypes.inl tt)
            | FNone => ret (Datatypes.inl tt)
            end
        | TCurlyClose => stk <- get (fun s => c_stack (p_c s)) ;; match stk with [] => fail | _ => close_all K ;; ret (Datatypes.inl tt) end
        | TUnknown n => unknown K FU n ;; ret (Datatypes.inl tt)
        | _ => fail
        end end) (fun r s => match r with Datatypes.inl _ => MI s | Datatypes.inr _ => exists G, WI G [] [] s end)).
      assert (S := wi_still K G [] l).
      assert (L0 : (forall w, o <> Some (TIdent w)) -> l = []).
      { intro N. destruct l; [reflexivity|]. destruct Hl as (w & Q & _); [discriminate|]. destruct (N w Q). }
      destruct o as [t|]; [|apply tr_ret; intros s H; exists G; rewrite <- L0; [exact H|discriminate]].
      apply tr_skip; [exact S|intro; apply pc_reset|intros _].
      assert (St : forall G, stable (WI G [] [])) by (intro; apply wi_still).
      destruct t; try apply tr_fail.
      + rewrite L0 by discriminate. apply tr_get. intro stk. eapply tr_pre; [intros s [H _]; exact H|]. destruct stk; [apply tr_fail|].
        eapply tr_bind; [apply tr_close_all|]. intro u. now apply tr_ret.
      + eapply tr_bind; [apply tr_command; intro Nl; destruct (Hl Nl) as (w' & Q1 & Q2); injection Q1 as <-; exact Q2|].
        intro f. destruct f as [t lab| |].
        * apply tr_skip; [|intro; apply pc_expect|intros _].
          -- intros s s' Si (Nt & G1 & l1 & X & Y). split; [exact Nt|]. exists G1, l1.
             rewrite (len_like _ _ (like_marks _ _ (st_code _ _ Si))). split; [eapply wi_still; eauto|exact Y].
          -- eapply tr_bind; [apply tr_open_all|]. intro u. now apply tr_ret.
        * apply tr_skip; [|intro; apply pc_expect|intros _].
          -- intros s s' Si [G1 X]. exists G1. eapply wi_still; eauto.
          -- apply tr_ret. intros s [G1 X]. exists G1, []. split; [exact X|congruence].
        * apply tr_ret. intros s [G1 X]. exists G1, []. split; [exact X|congruence].
      + rewrite L0 by discriminate. eapply tr_bind; [apply tr_unknown|]. intro u. apply tr_ret. intros s9 X. exists G, []. split; [exact X|congruence].
  Qed.

  Lemma mi_init script : MI (init script).
  Proof.
    exists [], []. split; [|congruence]. split; [|reflexivity]. constructor; cbn.
    - constructor; [intros [|] ? ? N; discriminate|intros ? ? []|intros p V; unfold vac in V; destruct p; discriminate].
    - auto.
    - constructor; [intros [|] ? ? N; discriminate|intros _ [|] ? ? N; discriminate|intros r []].
    - split; [intros ? ? []|]. split; [intros ? ? []|exact Logic.I].
    - intros ? ? [].
    - intros ? [].
    - intros ? ? [].
    - intros ? [].
    - intros ? [].
    - constructor; [intros ? []|constructor].
  Qed.

  Lemma nonempty_map {A B} (f : A -> B) l : nonempty_list (map f l) = nonempty_list l.
  Proof. destruct l; reflexivity. Qed.
  Lemma given_map {A B} (f : A -> B) o : given (option_map f o) = given o.
  Proof. destruct o; reflexivity. Qed.
  Lemma map_test_ext f t : test_ext (map_test f t) = test_ext t /\ is_vacation_test (IxTest (map_test f t)) = is_vacation_test (IxTest t).
  Proof.
    destruct t; split; try reflexivity; cbn; repeat match goal with |- context [match ?x with _ => _ end] => is_var x; destruct x end;
      cbn; rewrite ?nonempty_map, ?given_map; reflexivity.
  Qed.
  Lemma map_like f i : like i (map_instruction f i).
  Proof.
    destruct i; try apply like_refl; try (constructor; auto; fail).
    all: constructor; auto; cbn; repeat match goal with |- context [match ?x with _ => _ end] => is_var x; destruct x end; cbn;
      rewrite ?(proj1 (map_test_ext f _)), ?(proj2 (map_test_ext f _)); unfold mvs, mov; rewrite ?nonempty_map, ?given_map; try reflexivity.
    all: destruct fcc as [[[[[a b] c] d] e]|]; cbn; unfold mvs, mov; rewrite ?nonempty_map, ?given_map; reflexivity.
  Qed.
  Lemma map_likes f l : Forall2 like l (map (map_instruction f) l).
  Proof. induction l; constructor; auto using map_like. Qed.
  Lemma compile_with_guard x script : compile_with K FU script = Compiled x -> exists R, Inv [] (s_code x) /\ RG nc R [] (s_code x).
  Proof.
    intro E. unfold compile_with in E. destruct (Nat.ltb _ _); [discriminate|].
    destruct (loop _ _ _ _) as [u s| | |] eqn:El; try discriminate.
    assert (X : exists G, WI G [] [] s).
    { refine (tr_loop (fun _ => MI) (main_step K _) (fun _ s => exists G, WI G [] [] s) _ _ tt _ _ _ (mi_init script) El). intros []. apply tr_main_step. }
    destruct X as (G & H & B). unfold finish in E. destruct (c_stack (p_c s)) as [|b0 stk] eqn:St; [|discriminate]. injection E as <-. cbn [s_code].
    pose proof (ci_inv _ _ _ _ _ H) as I. pose proof (ci_rg _ _ _ _ _ H) as R. pose proof (ci_chain _ _ _ _ _ H) as C. rewrite St in I, R, C.
    assert (P0 : pends (c_blk (p_c s)) [] = []).
    { cbn. unfold bpend. rewrite B, (no_break _ _ C); [reflexivity|]. destruct C as [_ C]. unfold is_loop. now rewrite C. }
    rewrite P0 in I, R. exists (opens (blocks (p_c s)) ++ G). destruct (Nat.ltb _ _); [|auto].
    split; [eapply inv_like|eapply rg_like]; eauto using map_likes.
  Qed.
End Main.

Lemma compile_guard K script x : compile K script = Compiled x -> exists R, Inv [] (s_code x) /\ RG (C_nocheck K) R [] (s_code x).
Proof. apply compile_with_guard. Qed.
