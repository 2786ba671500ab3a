(** The instructions of a compiled script are those of its commands. *)
From Coq Require Import Lia.
From Verif Require Import Base Lib Address Var Value SetVar Flags Comparator Message EditHeader
  Expr ExprTok Event Notify AddrTest Vacation Sieve Utf8 Lexer Scope StringTok HeaderVar Compile ParseArgs ParseBase Parse GrammarSpec ArgSpec
  RefineSpec GrammarProofs RefineProofs1 RefineProofs2 RefineProofs3 RefineProofs4 RefineProofs6.
Import ListNotations.
Local Open Scope string_scope.
Local Open Scope list_scope.

Definition mask_type (m : mtype) : N := match m with MMatches p | MRegex p => p | _ => 0%N end.
Definition mask (i : instruction) : N :=
  match i with
  | IxTest (TeAddress _ _ _ _ _ m _ _) | IxTest (TeBody _ _ _ m _ _) | IxTest (TeDate _ _ _ _ _ _ m _ _) | IxTest (TeCurrentDate _ _ _ m _ _)
  | IxTest (TeEnvelope _ _ _ _ m _ _) | IxTest (TeHasFlag _ _ _ m _) | IxTest (TeHeader _ _ _ _ _ m _ _) | IxTest (TeMetadata _ _ m _ _)
  | IxTest (TeNotifyCapability _ _ _ m _ _) | IxTest (TeSpam _ _ m _ _) | IxTest (TeString _ _ m _ _) | IxTest (TeEnvironment _ _ m _ _)
  | IxTest (TeVirus _ m _ _) => mask_type m
  | _ => 0%N
  end.
Lemma capture_mask i : capture (mask i) (er i) = i.
Proof.
  destruct i; try reflexivity. destruct t; try reflexivity; cbn; f_equal; f_equal; destruct m; reflexivity.
Qed.

Section Change2.
  Variable K : cenv.
  Variable o : option nat.
  Variable code : list instruction.
  Definition G2 (p : nat) (i : instruction) : instruction := moved K o (capture (mask (nth p code IxStop)) i).
  Definition H2 (e : list instr) : list instr :=
    match o with Some n => map (map_instr (map_var (C_umax K) n)) e | None => e end.
  Lemma G2_fixed p i : fixed i = true -> G2 p i = i.
  Proof. unfold G2, moved. destruct o; destruct i; try discriminate; try reflexivity; destruct t; try discriminate; reflexivity. Qed.
  Lemma G2_kind p i : kind (G2 p i) = kind i.
  Proof. unfold G2, moved. destruct o; destruct i; try reflexivity; cbn; repeat match goal with |- context [let (_, _) := ?x in _] => destruct x end; reflexivity. Qed.
  Lemma G2_while p e t : G2 p (IxWhile e t) = IxWhile (H2 e) t.
  Proof. unfold G2, moved, H2. destruct o; reflexivity. Qed.
  Lemma G2_test p t : exists t', G2 p (IxTest t) = IxTest t'.
  Proof. unfold G2, moved. destruct o; cbn; eauto. Qed.
  Lemma G2_not p i : G2 p (set_not i) = set_not (G2 p i).
  Proof.
    unfold G2. generalize (mask (nth p code IxStop)). intro m. unfold moved.
    destruct o as [n|]; destruct i; try reflexivity.
    all: try (destruct t; reflexivity). all: cbn.
    all: try (now rewrite map_app). all: repeat match goal with |- context [let (_, _) := ?x in _] => destruct x end; reflexivity.
  Qed.
  Lemma gm_all : forall l p, (forall q, q < length l -> nth (p + q) code IxStop = nth q l IxStop) -> gm G2 p (map er l) = map (moved K o) l.
  Proof.
    induction l as [|i l IH]; intros p H; [reflexivity|]. cbn [map gm]. f_equal.
    - unfold G2. f_equal. specialize (H 0). rewrite Nat.add_0_r in H. rewrite H by (cbn; lia). apply capture_mask.
    - apply IH. intros q L. rewrite Nat.add_succ_l, <- Nat.add_succ_r. rewrite H by (cbn; lia). reflexivity.
  Qed.
End Change2.

Lemma compile_with_refines K FU script x : compile_with K FU script = Compiled x ->
  exists ts ks ks' W, tokens_from (C_L K) (C_string K) (lex_start script) ts /\ script_reads K W [[]] v_start ts ks /\
    Forall2 (tok_like (fun i i' => exists m, i' = moved K (after_global W) (capture m i))) ks ks' /\ s_vars x = num_vars W /\
    Compile.compile (C_umax K) (C_lim K) ks' = Some (s_code x).
Proof.
  unfold compile_with. destruct (Nat.ltb _ _); [discriminate|].
  destruct (loop FU (main_step K FU) tt (init script)) as [u s| | |] eqn:E; try discriminate.
  unfold finish. destruct (c_stack (p_c s)) eqn:Z; [|discriminate]. intro X. injection X as <-.
  destruct (main_ok K FU _ _ _ _ E Z) as (us & ks & f & R & Sr & OC & G). change (erc (p_c (init script))) with start in G.
  apply go_enough in G. set (o := after_global (p_v s)).
  destruct (go_change (G2 K o (c_code (p_c s))) (H2 K o) (G2_fixed K o _) (G2_kind K o _) (G2_while K o _) (G2_test K o _) (G2_not K o _)
    (C_umax K) (C_lim K) _ _ _ _ OC G) as (ks' & F2 & G').
  exists us, ks, ks', (p_v s). split; [exact R|]. split; [exact Sr|]. fold o. split; [|split; [reflexivity|]].
  - clear - F2. induction F2 as [|k k' l l' X F IH]; constructor; [|exact IH]. destruct X.
    + constructor. destruct H as (p & ->). now exists (mask (nth p (c_code (p_c s)) IxStop)).
    + constructor. destruct H as (p & ->). now exists (mask (nth p (c_code (p_c s)) IxStop)).
    + constructor. destruct H as (p & ->). now exists (mask (nth p (c_code (p_c s)) IxStop)).
    + constructor. destruct H as (p & ->). now exists (mask (nth p (c_code (p_c s)) IxStop)).
    + constructor; [destruct H as (p & ->)|destruct H0 as (p & ->)]; now exists (mask (nth p (c_code (p_c s)) IxStop)).
    + now constructor.
  - unfold Compile.compile. replace (length ks') with (length ks) by (exact (Forall2_len _ _ _ F2)).
    change start with (gst (G2 K o (c_code (p_c s))) start). rewrite G'. cbn [s_code c_code gst with_code erc]. f_equal.
    rewrite gm_all by reflexivity. unfold o, after_global, moved. destruct (Nat.ltb _ _); [reflexivity|]. apply List.map_id.
Qed.
