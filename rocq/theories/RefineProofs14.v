(** Includes count as actions when the commands of a script are put together. *)
From Coq Require Import Lia.
From Verif Require Import Base Lib Value Comparator Expr Sieve Compile CompileSpec CompileProofs1 RefineSpec.
Import ListNotations.
Local Open Scope list_scope.

Definition acted_res (r : pres) : pres := match r with POk c r => POk c (map acted r) | _ => r end.
Lemma closings_acted n : forall r, closings n (map acted r) = option_map (map acted) (closings n r).
Proof. induction n as [|n IH]; intro r; [reflexivity|]. destruct r as [|k r]; [reflexivity|]. destruct k; cbn; auto. Qed.
Lemma peek_acted r : peek_word (map acted r) = peek_word r.
Proof. destruct r as [|k r]; [reflexivity|]. now destruct k. Qed.
Section Acted.
  Variables (umax : nat) (lim : limits).
  Lemma parse_acted : forall f r code b stk n,
    parse_test umax lim f (map acted r) code b stk n = acted_res (parse_test umax lim f r code b stk n).
  Proof.
    induction f as [|f IH]; intros r code b stk n; [reflexivity|]. destruct r as [|k r]; [reflexivity|].
    destruct k; cbn [map acted parse_test]; try reflexivity; rewrite ?closings_acted, ?peek_acted; try (apply IH).
    all: try (destruct (closings (t_p b) r) as [r'|]; cbn [option_map]; [|reflexivity]; destruct stk; [reflexivity|apply IH]).
    all: try (destruct (peek_word r); [apply IH|reflexivity]).
    all: try (destruct (Nat.ltb (length stk) (l_tests lim)); [|reflexivity]; destruct r as [|k r]; [reflexivity|];
      destruct k; cbn [map acted]; try reflexivity; apply IH).
    - destruct stk; [reflexivity|]. destruct (is_test (last code IxStop) && peek_word r); [apply IH|reflexivity].
    - destruct (t_p b); [|apply IH]. destruct stk as [|prev stk]; [reflexivity|]. destruct stk; [reflexivity|apply IH].
  Qed.
  (** The same state with another number of includes *)
  Definition incs_are (n : nat) (s : cst) : cst :=
    {| c_code := c_code s; c_blk := c_blk s; c_stack := c_stack s; c_last := c_last s; c_includes := n |}.
  Lemma open_acted t l n s : open lim t l (incs_are n s) = option_map (incs_are n) (open lim t l s).
  Proof. unfold open. cbn [c_stack incs_are]. now destruct (Nat.ltb _ _). Qed.
  Lemma test_then_acted t r n s :
    test_then umax lim t (map acted r) (incs_are n s) = option_map (fun q => (map acted (fst q), incs_are n (snd q))) (test_then umax lim t r s).
  Proof.
    unfold test_then. rewrite map_length, parse_acted. cbn [c_code incs_are].
    destruct (parse_test _ _ _ _ _ _ _ _) as [| |code r1]; try reflexivity. cbn [acted_res]. destruct r1 as [|k r1]; [reflexivity|].
    destruct k; cbn [map acted]; try reflexivity.
    change (with_code code (incs_are n s)) with (incs_are n (with_code code s)). rewrite open_acted. now destruct (open _ _ _ _).
  Qed.
  Lemma break_acted l n s : do_break umax l (incs_are n s) = option_map (incs_are n) (do_break umax l s).
  Proof.
    unfold do_break, blocks. cbn [c_code c_blk c_stack incs_are]. destruct l.
    - destruct (find_label _ _ _ _) as [[k bs]|]; [|reflexivity]. now destruct bs.
    - destruct (find_loop _ _) as [[k bs]|]; [|reflexivity]. now destruct bs.
  Qed.
  Lemma close_acted o r n s : close umax o (map acted r) (incs_are n s) = option_map (incs_are n) (close umax o r s).
  Proof.
    unfold close. cbn [c_stack incs_are c_code c_blk c_last]. destruct (c_stack s); [reflexivity|].
    destruct (b_type (c_blk s)); try reflexivity; (destruct r as [|k r]; [reflexivity|]; destruct k; reflexivity).
  Qed.
  Lemma command_acted k r s r1 s1 n : command umax lim k r s = Some (r1, s1) ->
    exists n1, command umax lim (acted k) (map acted r) (incs_are n s) = Some (map acted r1, incs_are n1 s1).
  Proof.
    intro C. destruct k; cbn [command acted] in *; try discriminate C.
    - exists n. change (with_blk (with_if [] (c_blk (incs_are n s))) (incs_are n s)) with (incs_are n (with_blk (with_if [] (c_blk s)) s)).
      rewrite test_then_acted, C. reflexivity.
    - exists n. cbn [c_last incs_are]. destruct (c_last s); try discriminate C; rewrite test_then_acted, C; reflexivity.
    - exists n. cbn [c_last incs_are]. destruct (c_last s); try discriminate C; (destruct r as [|k r]; [discriminate C|]; destruct k; try discriminate C);
        cbn [map acted]; rewrite open_acted; (destruct (open _ _ _ _); [|discriminate C]); injection C as <- <-; reflexivity.
    - exists n. cbn [c_stack incs_are]. destruct (Nat.eqb _ _); [discriminate C|]. match type of C with (if ?b then _ else _) = _ => destruct b; [discriminate C|] end.
      destruct r as [|k r]; [discriminate C|]. destruct k; try discriminate C. cbn [map acted].
      change (emit ?l (incs_are n s)) with (incs_are n (emit l s)). rewrite open_acted. destruct (open _ _ _ _); [|discriminate C]. injection C as <- <-. reflexivity.
    - exists n. destruct r as [|k r]; [discriminate C|]. destruct k; try discriminate C. cbn [map acted].
      change (emit ?l (incs_are n s)) with (incs_are n (emit l s)). rewrite open_acted. destruct (open _ _ _ _); [|discriminate C]. injection C as <- <-. reflexivity.
    - exists n. rewrite break_acted. destruct (do_break _ _ _); [|discriminate C]. injection C as <- <-. reflexivity.
    - exists n. change (blocks (incs_are n s)) with (blocks s). destruct (do_continue 0 (blocks s)) as [m is]. destruct m as [|[|[|m]]]; try discriminate C.
      injection C as <- <-. reflexivity.
    - exists n. injection C as <- <-. reflexivity.
    - exists n. destruct (Nat.ltb _ _); [|discriminate C]. injection C as <- <-. reflexivity.
    - exists n. injection C as <- <-. unfold do_require. destruct caps; [reflexivity|]. cbn [c_blk incs_are]. now destruct (b_require (c_blk s)).
    - exists n. injection C as <- <-. reflexivity.
    - exists n. injection C as <- <-. reflexivity.
    - exists n. injection C as <- <-. reflexivity.
    - exists n. rewrite close_acted. destruct (close _ _ _ _); [|discriminate C]. injection C as <- <-. reflexivity.
  Qed.
  Lemma go_acted s' : forall f r s n, go umax lim f r s = COk s' -> exists n', go umax lim f (map acted r) (incs_are n s) = COk (incs_are n' s').
  Proof.
    induction f as [|f IH]; intros r s n G; destruct r as [|k r]; try discriminate G.
    - exists n. cbn [go map] in *. cbn [c_stack incs_are]. destruct (c_stack s); [|discriminate G]. injection G as <-. reflexivity.
    - exists n. cbn [go map] in *. cbn [c_stack incs_are]. destruct (c_stack s); [|discriminate G]. injection G as <-. reflexivity.
    - cbn [go map] in *. destruct (command umax lim k r s) as [[r1 s1]|] eqn:C; [|discriminate G].
      destruct (command_acted _ _ _ _ _ n C) as (n1 & ->). now apply IH.
  Qed.
  Lemma compile_acted ks code : Compile.compile umax lim ks = Some code -> Compile.compile umax lim (map acted ks) = Some code.
  Proof.
    unfold Compile.compile. rewrite map_length. destruct (go _ _ _ ks _) as [| |s] eqn:G; try discriminate. intro C. injection C as <-.
    destruct (go_acted _ _ _ _ 0 G) as (n & G'). change (incs_are 0 start) with start in G'. rewrite G'. reflexivity.
  Qed.
  Lemma alone_acted r : forallb apart r = true -> forallb (fun k => match k with KRequire _ | KInclude _ => false | _ => true end) (map acted r) = true.
  Proof. induction r as [|k r IH]; [reflexivity|]. cbn [map forallb]. intro H. apply andb_prop in H. destruct H as [H1 H2]. rewrite (IH H2). now destruct k. Qed.
End Acted.
Lemma neat_acted ks : forall a, neat (acted a) (map acted ks) = neat a ks.
Proof. induction ks as [|k ks IH]; intro a; [reflexivity|]. cbn [map neat]. rewrite IH. f_equal. destruct a, k; reflexivity. Qed.
