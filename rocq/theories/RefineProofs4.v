(** The commands of the compiler and those of the script it reads. *)
From Coq Require Import Lia.
From Verif Require Import Base Lib Address Var Value SetVar Flags Comparator Message EditHeader
  Expr ExprTok Event Notify AddrTest Vacation Sieve Utf8 Lexer Scope StringTok HeaderVar ParseArgs ParseBase Parse Compile GrammarSpec ArgSpec
  RefineSpec GrammarProofs GrammarProofs2 GrammarProofs3 GrammarProofs4 ArgProofs1 ArgProofs5 CompileProofs8
  RefineProofs1 RefineProofs2 RefineProofs3 RefineCaps.
Import ListNotations.
Local Open Scope string_scope.
Local Open Scope list_scope.

(** *** Fuel *)
Lemma parse_more umax lim : forall f f' r code b stk n, Compile.parse_test umax lim f r code b stk n <> PFuel -> f <= f' ->
  Compile.parse_test umax lim f' r code b stk n = Compile.parse_test umax lim f r code b stk n.
Proof.
  induction f as [|f IH]; intros f' r code b stk n N L; [now destruct N|]. destruct f' as [|f']; [lia|].
  assert (IH' : forall r code b stk n, Compile.parse_test umax lim f r code b stk n <> PFuel ->
    Compile.parse_test umax lim f' r code b stk n = Compile.parse_test umax lim f r code b stk n) by (intros; apply IH; [assumption|lia]).
  cbn [Compile.parse_test] in *. destruct r as [|t r]; [reflexivity|].
  destruct t; try reflexivity;
    repeat match goal with
    | |- context [match closings ?a ?b with _ => _ end] => destruct (closings a b); [|reflexivity]
    | |- context [match stk with _ => _ end] => destruct stk; try reflexivity
    | |- context [if Nat.ltb ?a ?b then _ else _] => destruct (Nat.ltb a b); [|reflexivity]
    | |- context [if ?a && ?b then _ else _] => destruct (a && b); [|reflexivity]
    | |- context [if peek_word ?a then _ else _] => destruct (peek_word a); [|reflexivity]
    | |- context [match t_p b with _ => _ end] => destruct (t_p b)
    | |- context [match ?x with KOpen => _ | _ => _ end] => destruct x; try reflexivity
    | |- context [match ?x with [] => _ | _ => _ end] => is_var x; destruct x; try reflexivity
    end; try reflexivity; apply IH'; assumption.
Qed.
Lemma parse_enough umax lim f r r' code code' b stk n : Compile.parse_test umax lim f r code b stk n = POk code' r' ->
  Compile.parse_test umax lim (length r + 1) r code b stk n = POk code' r'.
Proof.
  intro E. destruct (Nat.le_gt_cases f (length r + 1)) as [L|L].
  - rewrite parse_more with (f := f); [exact E|congruence|exact L].
  - rewrite <- E. symmetry. apply parse_more; [|lia]. apply parse_fuel. lia.
Qed.
Lemma go_more umax lim : forall f f' r s, go umax lim f r s <> CFuel -> f <= f' -> go umax lim f' r s = go umax lim f r s.
Proof.
  induction f as [|f IH]; intros f' r s N L.
  - destruct r; [|now destruct N]. destruct f'; reflexivity.
  - destruct f' as [|f']; [lia|]. cbn [go] in *. destruct r as [|t r]; [reflexivity|]. destruct (Compile.command _ _ _ _ _) as [[r1 s1]|]; [|reflexivity].
    apply IH; [exact N|lia].
Qed.
Lemma go_enough umax lim f r s s' : go umax lim f r s = COk s' -> go umax lim (length r) r s = COk s'.
Proof.
  intro E. destruct (Nat.le_gt_cases f (length r)) as [L|L].
  - rewrite go_more with (f := f); [exact E|congruence|exact L].
  - rewrite <- E. symmetry. apply go_more; [|lia]. apply go_fuel. lia.
Qed.

(** *** What tests capture does not matter *)
Lemma map_update f : (forall i, er (f i) = f (er i)) -> forall l n, map er (update n f l) = update n f (map er l).
Proof. intros C. induction l as [|i l IH]; intros [|n]; cbn; rewrite ?C, ?IH; reflexivity. Qed.
Lemma map_patch f : (forall i, er (f i) = f (er i)) -> forall ps l, map er (patch f ps l) = patch f ps (map er l).
Proof. intros C. unfold patch. induction ps as [|n ps IH]; intros l; cbn; [reflexivity|]. now rewrite IH, map_update. Qed.
Lemma erc_emit l c : Forall (fun i => er i = i) l -> erc (emit l c) = emit l (erc c).
Proof.
  intro F. unfold erc, emit, with_code. cbn. rewrite map_app. do 2 f_equal. induction F; cbn; congruence.
Qed.
Lemma erc_open lim t l c : open lim t l (erc c) = option_map erc (open lim t l c).
Proof. unfold open. cbn [erc with_code c_stack c_code c_blk c_last c_includes]. rewrite map_length. now destruct (Nat.ltb _ _). Qed.
Lemma erc_close u o r c : (forall i, o = Some i -> er i = i) -> close u o r (erc c) = option_map erc (close u o r c).
Proof.
  intro O. unfold close. cbn [erc with_code c_stack c_code c_blk c_last c_includes]. destruct (c_stack c) as [|prev stk]; [reflexivity|]. cbv zeta.
  replace (map er (c_code c) ++ match o with Some i => [i] | None => [] end)
    with (map er (c_code c ++ match o with Some i => [i] | None => [] end))
    by (rewrite map_app; f_equal; destruct o; [cbn; now rewrite O|reflexivity]).
  generalize (c_code c ++ match o with Some i => [i] | None => [] end). intro code.
  assert (J : forall n, map er code ++ [IxJmp n] = map er (code ++ [IxJmp n])) by (intro; now rewrite map_app).
  assert (X1 : forall t i, er (to_jmp t i) = to_jmp t (er i)) by (intros ? []; reflexivity).
  assert (X2 : forall t i, er (to_jz t i) = to_jz t (er i)) by (intros ? []; reflexivity).
  assert (X3 : forall t i, er (to_for t i) = to_for t (er i)) by (intros ? []; reflexivity).
  assert (X4 : forall t i, er (to_while t i) = to_while t (er i)) by (intros ? []; reflexivity).
  destruct (b_type (c_blk c)); cbn [option_map]; rewrite ?J, ?map_length;
    try (unfold erc, with_code; cbn [c_code c_blk c_stack c_last c_includes]; rewrite ?map_patch, ?map_update by auto; reflexivity);
    destruct r as [|[] r]; cbn [option_map]; unfold erc, with_code; cbn [c_code c_blk c_stack c_last c_includes];
      rewrite ?map_patch, ?map_update by auto; rewrite ?J, ?map_length; reflexivity.
Qed.
Lemma erc_blocks c : blocks (erc c) = blocks c. Proof. reflexivity. Qed.
Lemma erc_with_blocks l c : with_blocks l (erc c) = erc (with_blocks l c). Proof. destruct l; reflexivity. Qed.
Lemma erc_break u l c : do_break u l (erc c) = option_map erc (do_break u l c).
Proof.
  unfold do_break. rewrite erc_blocks. cbn [erc with_code c_code]. rewrite map_length. destruct l as [n|].
  - destruct (find_label _ _ _ _) as [[p bs]|]; [|reflexivity]. cbn [option_map]. rewrite erc_emit by (repeat constructor).
    change (with_code (map er (c_code c)) c) with (erc c). now rewrite erc_with_blocks.
  - destruct (find_loop _ _) as [[p bs]|]; [|reflexivity]. cbn [option_map]. rewrite erc_emit by (destruct p; repeat constructor).
    change (with_code (map er (c_code c)) c) with (erc c). now rewrite erc_with_blocks.
Qed.
Lemma continue_er : forall l n, Forall (fun i => er i = i) (snd (do_continue n l)).
Proof.
  induction l as [|b l IH]; intro n; cbn [do_continue]; [constructor|].
  destruct (b_type b); try apply IH; (destruct (Nat.eqb n 1); [repeat constructor|apply IH]).
Qed.
Lemma erc_return c : do_return (erc c) = erc (do_return c).
Proof. unfold do_return. rewrite erc_blocks. rewrite erc_emit; [reflexivity|]. destruct (length _); repeat constructor. Qed.
Lemma erc_require l c : do_require l (erc c) = erc (do_require l c).
Proof.
  unfold do_require. destruct l as [|x l]; [reflexivity|]. cbn [erc with_code c_blk c_code]. destruct (b_require _) as [p|].
  - unfold erc, with_code. cbn. rewrite map_update; [reflexivity|]. intros []; reflexivity.
  - rewrite erc_emit by (repeat constructor). unfold erc, emit, with_code, with_blk. cbn. now rewrite map_length.
Qed.
Lemma action_er K V n us i W : action_is K V n us i W -> er i = i.
Proof. destruct 1 as [? ? ? H| | | |]; try reflexivity. destruct H; reflexivity. Qed.
Lemma include_er K V us i : include_is K V us i -> er i = i.
Proof. intros (l & x & n & g & o & p & H). now destruct H as (_ & _ & _ & _ & _ & _ & ->). Qed.
Lemma vacation_er K V us t i : vacation_is K V us t i -> er (IxTest t) = IxTest t /\ er i = i.
Proof.
  intros (l & x & r & su & fr & mi & ad & ha & p & fc & H). destruct H as (_ & _ & _ & _ & _ & _ & _ & _ & _ & _ & -> & ->). auto.
Qed.
