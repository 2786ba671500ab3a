(** Tests that the compiler accepts, as trees. *)
From Coq Require Import Lia.
From Verif Require Import Base Lib Value Comparator Expr Sieve Compile CompileSpec RefineSpec.
Import ListNotations.
Local Open Scope list_scope.

(** What is left to read of a test inside of [d] lists: after a test, and before one *)
Fixpoint after (d : nat) (us : list token) : Prop :=
  match d with
  | 0 => us = []
  | S d' => exists ts us', us = ts ++ KPClose :: us' /\ after d' us' /\
              (ts = [] \/ exists l, ts = KComma :: rtrees l)
  end.
Definition before (d : nat) (us : list token) : Prop := exists t us', us = rtree t ++ us' /\ after d us'.

Lemma after_comma d us : before (S d) us -> after (S d) (KComma :: us).
Proof.
  intros (t & us' & -> & ts & us'' & -> & A & B). destruct B as [->|(l & ->)].
  - exists (KComma :: rtree t), us''. split; [reflexivity|]. split; [exact A|]. right. exists (TOne t). reflexivity.
  - exists (KComma :: rtrees (TMore t l)), us''. split; [cbn; rewrite <- !app_assoc; reflexivity|]. split; [exact A|]. right. eauto.
Qed.
Lemma after_close d us : after d us -> after (S d) (KPClose :: us).
Proof. intro A. exists [], us. auto. Qed.
Lemma before_list d us : before (S d) us -> exists l us', us = rtrees l ++ KPClose :: us' /\ after d us'.
Proof.
  intros (t & us' & -> & ts & us'' & -> & A & B). destruct B as [->|(l & ->)].
  - exists (TOne t), us''. auto.
  - exists (TMore t l), us''. split; [cbn; rewrite <- !app_assoc; reflexivity|exact A].
Qed.

Section Tests.
  Variables (umax : nat) (lim : limits).
  Lemma neat_tail a b r : neat a (b :: r) = true -> neat_pair a b = true /\ neat b r = true.
  Proof. intro H. cbn [neat] in H. now apply andb_prop in H. Qed.
  Lemma test_shape : forall f a r code b stk n code' r', t_p b = 0 -> Forall (fun b => t_p b = 0) stk -> neat a r = true -> (match a with KAnyOf | KAllOf => False | _ => True end) ->
    parse_test umax lim f r code b stk n = POk code' r' ->
    exists us, r = us ++ r' /\ (if ends a then stk <> [] -> after (length stk) us else before (length stk) us).
  Proof.
    induction f as [|f IH]; intros a r code b stk n code' r' T TS N NA E; [discriminate|].
    cbn [parse_test] in E. destruct r as [|k r]; [discriminate|]. apply neat_tail in N. destruct N as [N1 N2].
    assert (Leaf : forall i nt, (exists t, [k] = rtree t) -> ends k = true -> ends a = false ->
      match closings (t_p b) r with
      | None => PErr
      | Some r0 => match stk with
        | [] => POk ((code ++ [i]) ++ [IxJz umax]) r0
        | _ :: _ => parse_test umax lim f r0 (code ++ [i]) {| t_all := t_all b; t_not := t_not b; t_p := 0; t_jmps := t_jmps b |} stk nt
        end
      end = POk code' r' ->
      exists us, k :: r = us ++ r' /\ (if ends a then stk <> [] -> after (length stk) us else before (length stk) us)).
    { intros i nt (t & Ek) K A X. rewrite T in X. cbn [closings] in X. rewrite A. destruct stk as [|b0 stk].
      - injection X as _ ->. exists [k]. split; [reflexivity|]. exists t, []. rewrite app_nil_r. split; [exact Ek|reflexivity].
      - assert (NK : match k with KAnyOf | KAllOf => False | _ => True end) by (destruct k; exact Logic.I || discriminate K).
        destruct (IH k _ _ {| t_all := t_all b; t_not := t_not b; t_p := 0; t_jmps := t_jmps b |} _ _ _ _ eq_refl TS N2 NK X) as (us & -> & S). rewrite K in S. exists (k :: us). split; [reflexivity|].
        exists t, us. split; [now rewrite <- Ek|]. apply S. discriminate. }
    destruct k; try discriminate E; cbn [neat_pair] in N1; cbn [begins] in N1;
      try (apply negb_true_iff in N1).
    - (* not *) destruct (peek_word r); [|discriminate]. destruct (IH _ _ _ _ _ _ _ _ T TS N2 Logic.I E) as (us & -> & t & us' & -> & A).
      exists (KNot :: rtree t ++ us'). split; [reflexivity|]. rewrite N1. exists (TNot t), us'. auto.
    - (* anyof *) destruct (Nat.ltb _ _); [|discriminate]. destruct r as [|[] r]; try discriminate. apply neat_tail in N2. destruct N2 as [_ N2].
      destruct (IH _ _ _ _ _ _ _ _ (eq_refl : t_p {| t_all := xorb false n; t_not := n; t_p := 0; t_jmps := [] |} = 0) (Forall_cons _ T TS) N2 Logic.I E) as (us & -> & B). cbn [ends length] in B. apply before_list in B. destruct B as (l & us' & -> & A).
      exists (KAnyOf :: KPOpen :: rtrees l ++ KPClose :: us'). split; [reflexivity|]. rewrite N1. exists (TAny l), us'.
      split; [cbn; rewrite <- app_assoc; reflexivity|exact A].
    - (* allof *) destruct (Nat.ltb _ _); [|discriminate]. destruct r as [|[] r]; try discriminate. apply neat_tail in N2. destruct N2 as [_ N2].
      destruct (IH _ _ _ _ _ _ _ _ (eq_refl : t_p {| t_all := xorb true n; t_not := n; t_p := 0; t_jmps := [] |} = 0) (Forall_cons _ T TS) N2 Logic.I E) as (us & -> & B). cbn [ends length] in B. apply before_list in B. destruct B as (l & us' & -> & A).
      exists (KAllOf :: KPOpen :: rtrees l ++ KPClose :: us'). split; [reflexivity|]. rewrite N1. exists (TAll l), us'.
      split; [cbn; rewrite <- app_assoc; reflexivity|exact A].
    - (* true *) exact (Leaf _ _ (ex_intro _ (TConst true) eq_refl) eq_refl N1 E).
    - (* false *) exact (Leaf _ _ (ex_intro _ (TConst false) eq_refl) eq_refl N1 E).
    - (* leaf *) exact (Leaf _ _ (ex_intro _ (TLeaf i) eq_refl) eq_refl N1 E).
    - (* , *) destruct stk as [|b0 stk]; [discriminate|]. destruct (_ && _); [|discriminate].
      destruct (IH _ _ _ _ _ _ _ _ (T : t_p {| t_all := t_all b; t_not := t_not b; t_p := t_p b; t_jmps := t_jmps b ++ [length code] |} = 0) TS N2 Logic.I E) as (us & -> & B). exists (KComma :: us). split; [reflexivity|]. rewrite N1. intros _.
      apply after_comma. exact B.
    - (* ( *) destruct a; try discriminate N1; contradiction.
    - (* ) *) rewrite T in E. destruct stk as [|prev stk]; [discriminate|]. rewrite N1. cbn [length]. destruct stk as [|b1 stk].
      + injection E as _ ->. exists [KPClose]. split; [reflexivity|]. intros _. now apply after_close.
      + destruct (IH KPClose _ _ _ _ _ _ _ (Forall_inv TS) (Forall_inv_tail TS) N2 Logic.I E) as (us & -> & B). exists (KPClose :: us). split; [reflexivity|]. intros _. apply after_close.
        apply B. discriminate.
  Qed.
End Tests.
