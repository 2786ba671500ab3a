(** The texts of ModSpec.v are determined. *)
From Coq Require Import Lia.
From Verif Require Import Base Lib Var Value SetVar SetSpec SetProofs DateSpec Message Event Sieve Run TestSpec ActionSpec ModSpec ModProofs.
Import ListNotations.
Local Open Scope list_scope.

Definition functional (writes : ch -> text -> Prop) : Prop := forall c w w', writes c w -> writes c w' -> w = w'.

Lemma written_one writes max : functional writes ->
  forall p out, written writes p out -> forall p' rest rest' out' k, written writes p' out' -> p ++ rest = p' ++ rest' ->
    k + blen out <= max -> k + blen out' <= max ->
    match rest with [] => True | c :: _ => exists w, writes c w /\ max < k + blen out + blen w end ->
    match rest' with [] => True | c :: _ => exists w, writes c w /\ max < k + blen out' + blen w end ->
    out = out'.
Proof.
  intros F p out W. induction W as [|c w p out WC W IH]; intros p' rest rest' out' k W' Q B B' R R'.
  - destruct W' as [|c w p' out' WC W']; [reflexivity|]. cbn [app] in Q. subst rest. destruct R as (x & X & Y).
    rewrite (F _ _ _ X WC) in Y. rewrite blen_app in B'. cbn [blen] in Y. lia.
  - destruct W' as [|c' w' p' out' WC' W'].
    + cbn [app] in Q. subst rest'. destruct R' as (x & X & Y). rewrite (F _ _ _ X WC) in Y. rewrite blen_app in B. cbn [blen] in Y. lia.
    + injection Q as -> Q. rewrite (F _ _ _ WC' WC) in *. rewrite blen_app in *. f_equal.
      apply (IH p' rest rest' out' (k + blen w)); try assumption; try lia.
      * destruct rest as [|d rest]; [exact R|]. destruct R as (x & X & Y). exists x. split; [exact X|lia].
      * destruct rest' as [|d rest']; [exact R'|]. destruct R' as (x & X & Y). exists x. split; [exact X|lia].
Qed.
Lemma within_one writes max s out out' : functional writes -> written_within writes max s out -> written_within writes max s out' -> out = out'.
Proof.
  intros F (p & r & S & W & B & R) (p' & r' & S' & W' & B' & R').
  apply (written_one writes max F p out W p' r r' out' 0 W'); try assumption. congruence.
Qed.

Lemma escaped_one special : functional (escaped special).
Proof. intros c w w' [[A ->]|[A ->]] [[B ->]|[B ->]]; try reflexivity; contradiction. Qed.
Lemma hexval_small x v : hexval x = Some v -> ~ (65 <= x <= 70)%N -> (v < 16)%N /\ x = hex_digit v.
Proof.
  unfold hexval, between, hex_digit. intros H N.
  destruct (N.leb_spec 48 x), (N.leb_spec x 57); cbn [andb] in H;
    [injection H as <-; split; [lia|]; destruct (N.ltb_spec (x - 48) 10); lia| | |];
    (destruct (N.leb_spec 97 x), (N.leb_spec x 102); cbn [andb] in H;
      [injection H as <-; split; [lia|]; destruct (N.ltb_spec (x - 87) 10); lia| | |]);
    (destruct (N.leb_spec 65 x), (N.leb_spec x 70); cbn [andb] in H; try discriminate; lia).
Qed.
Lemma escape_one b w w' : byte_escape b w -> byte_escape b w' -> w = w'.
Proof.
  intros (x & y & vx & vy & -> & X & Y & B & NX & NY) (x' & y' & vx' & vy' & -> & X' & Y' & B' & NX' & NY').
  destruct (hexval_small _ _ X NX) as [A1 ->], (hexval_small _ _ Y NY) as [A2 ->], (hexval_small _ _ X' NX') as [A3 ->], (hexval_small _ _ Y' NY') as [A4 ->].
  assert (vx = vx') as -> by lia. assert (vy = vy') as -> by lia. reflexivity.
Qed.
Lemma url_one : functional url_char.
Proof.
  intros c w w' [[A ->]|[A (ws & F & ->)]] [[B ->]|[B (ws' & F' & ->)]]; try reflexivity; try contradiction. f_equal.
  revert ws' F'. induction F as [|b x bs ws H F IH]; intros ws' F'; inversion F' as [|? y ? ys H' F'']; subst; [reflexivity|].
  f_equal; [exact (escape_one _ _ _ H H')|apply IH, F''].
Qed.

Lemma rest_one max : forall p p' rest rest' k, p ++ rest = p' ++ rest' ->
  (p <> [] -> k + blen p <= max) -> (p' <> [] -> k + blen p' <= max) ->
  match rest with [] => True | d :: _ => max < k + blen p + len_utf8 d end ->
  match rest' with [] => True | d :: _ => max < k + blen p' + len_utf8 d end -> p = p'.
Proof.
  induction p as [|c p IH]; intros [|c' p'] rest rest' k Q B B' R R'; [reflexivity| | |]; cbn [app] in Q.
  - subst rest. specialize (B' ltac:(discriminate)). cbn [blen] in *. lia.
  - subst rest'. specialize (B ltac:(discriminate)). cbn [blen] in *. lia.
  - injection Q as -> Q. f_equal. specialize (B ltac:(discriminate)). specialize (B' ltac:(discriminate)). cbn [blen] in *.
    apply (IH p' rest rest' (k + len_utf8 c') Q); try (intros; lia).
    + destruct rest; [exact R|lia].
    + destruct rest'; [exact R'|lia].
Qed.
Lemma first_one f max t out out' : first_changed f max t out -> first_changed f max t out' -> out = out'.
Proof.
  intros H H'. inversion H as [|c s X|c p rest X B R]; subst; inversion H' as [|c' s' X'|c' p' rest' X' B' R' Q']; subst; try reflexivity; try lia.
  f_equal. symmetry. apply (rest_one max p' p rest' rest (blen (f c))); try rewrite <- blen_app; try assumption. all: intros; rewrite <- ?blen_app; auto.
Qed.

Lemma replaced_one find repl : find <> [] -> forall t out, replaced find repl t out -> forall out', replaced find repl t out' -> out = out'.
Proof.
  intros NE t out H. induction H as [|s out H IH|c s out N H IH]; intros out' H'.
  - inversion H' as [|s out0 H0 Q|]; subst; [reflexivity|]. destruct find; [congruence|discriminate].
  - inversion H' as [Q|s' out0 H0 Q|c s' out0 N H0 Q]; subst.
    + destruct find; [congruence|discriminate].
    + apply app_inv_head in Q. subst. f_equal. apply IH, H0.
    + exfalso. apply N. exists s. congruence.
  - inversion H' as [Q|s' out0 H0 Q|c' s' out0 N' H0 Q]; subst.
    + exfalso. apply N. exists s'. congruence.
    + f_equal. apply IH, H0.
Qed.
Lemma interspersed_one repl t out : interspersed repl t out -> forall out', interspersed repl t out' -> out = out'.
Proof.
  induction 1 as [|c s out H IH]; intros out' H'; inversion H' as [|? ? o H0]; subst; [reflexivity|]. do 2 f_equal. apply IH, H0.
Qed.

(** Decimal numbers without leading zeros. *)
Fixpoint pval (ds : list N) : N := match ds with [] => 0%N | d :: l => (d * 10 ^ N.of_nat (length l) + pval l)%N end.
Lemma fold_pval ds : forall a, fold_left (fun a d => 10 * a + d)%N ds a = (a * 10 ^ N.of_nat (length ds) + pval ds)%N.
Proof.
  induction ds as [|d ds IH]; intro a; cbn [fold_left length pval]; [change (10 ^ N.of_nat 0)%N with 1%N; lia|].
  rewrite IH, Nat2N.inj_succ, N.pow_succ_r'. lia.
Qed.
Lemma pval_bound ds : Forall (fun d => (d < 10)%N) ds -> (pval ds < 10 ^ N.of_nat (length ds))%N.
Proof.
  induction 1 as [|d ds D F IH]; cbn [pval length]; [reflexivity|]. rewrite Nat2N.inj_succ, N.pow_succ_r'.
  assert (d * 10 ^ N.of_nat (length ds) <= 9 * 10 ^ N.of_nat (length ds))%N by (apply N.mul_le_mono_r; lia). lia.
Qed.
Lemma pval_one ds : Forall (fun d => (d < 10)%N) ds -> forall ds', Forall (fun d => (d < 10)%N) ds' -> length ds = length ds' -> pval ds = pval ds' -> ds = ds'.
Proof.
  induction 1 as [|d ds D F IH]; intros [|d' ds'] F' Ln V; try discriminate; [reflexivity|]. inversion F' as [|? ? D' F'']; subst.
  injection Ln as Ln. cbn [pval] in V. rewrite <- Ln in V. pose proof (pval_bound ds F) as B. pose proof (pval_bound ds' F'') as B'. rewrite <- Ln in B'.
  set (P := (10 ^ N.of_nat (length ds))%N) in *.
  assert (d = d') as -> by (destruct (N.lt_trichotomy d d') as [X|[X|X]]; [|exact X|]; exfalso; nia).
  f_equal. apply IH; [assumption|assumption|lia].
Qed.
Lemma pval_low ds : Forall (fun d => (d < 10)%N) ds -> hd 0%N ds <> 0%N -> (10 ^ N.of_nat (length ds) <= 10 * pval ds)%N.
Proof.
  intros F H. destruct ds as [|d ds]; cbn [hd] in H; [congruence|]. cbn [pval length]. rewrite Nat2N.inj_succ, N.pow_succ_r'.
  assert (1 * 10 ^ N.of_nat (length ds) <= d * 10 ^ N.of_nat (length ds))%N by (apply N.mul_le_mono_r; lia). lia.
Qed.
Lemma digits_short ds ds' : Forall (fun d => (d < 10)%N) ds -> Forall (fun d => (d < 10)%N) ds' ->
  hd 0%N ds <> 0%N -> pval ds = pval ds' -> length ds <= length ds'.
Proof.
  intros F F' H V. pose proof (pval_low ds F H) as A. pose proof (pval_bound ds' F') as B. rewrite <- V in B.
  destruct (Nat.le_gt_cases (length ds) (length ds')) as [X|X]; [exact X|exfalso].
  assert (P : (10 ^ N.of_nat (length ds') * 10 <= 10 ^ N.of_nat (length ds))%N).
  { rewrite N.mul_comm, <- N.pow_succ_r'. apply N.pow_le_mono_r; lia. }
  lia.
Qed.
Lemma decimal_one w w' t t' n : decimal w t n -> decimal w' t' n ->
  (w = 1 \/ hd 48%N t <> 48%N) -> (w' = 1 \/ hd 48%N t' <> 48%N) -> t = t'.
Proof.
  intros (ds & Ln & F & -> & V) (ds' & Ln' & F' & -> & V') H H'. rewrite fold_pval in V, V'. cbn [N.mul] in V, V'. rewrite V in V'. f_equal.
  assert (G : forall ds w, length ds = w -> w = 1 \/ hd 48%N (map (N.add 48) ds) <> 48%N -> hd 0%N ds <> 0%N \/ (length ds = 1)).
  { intros l v <- [X|X]; [right; exact X|]. destruct l as [|d l]; cbn in X; [congruence|]. left. cbn [hd]. lia. }
  specialize (G ds w Ln H) as G1. specialize (G ds' w' Ln' H') as G2. clear G.
  apply pval_one; try assumption.
  assert (N1 : 1 <= length ds) by (destruct G1 as [G1|G1]; [destruct ds; [contradiction|cbn; lia]|lia]).
  assert (N2 : 1 <= length ds') by (destruct G2 as [G2|G2]; [destruct ds'; [contradiction|cbn; lia]|lia]).
  apply Nat.le_antisymm.
  - destruct G1 as [G1|G1]; [|lia]. apply digits_short; try assumption; lia.
  - destruct G2 as [G2|G2]; [|lia]. apply digits_short; try assumption; lia.
Qed.

Theorem modified_one E s m t out out' : Forall valid_char t -> modified E s m t out -> modified E s m t out' -> out = out'.
Proof.
  intros V H H'. inversion H; subst; inversion H'; subst; try reflexivity; try contradiction.
  - eapply first_one; eassumption.
  - eapply first_one; eassumption.
  - eapply within_one; [apply escaped_one|eassumption|eassumption].
  - eapply within_one; [apply escaped_one|eassumption|eassumption].
  - eapply within_one; [apply url_one|auto|auto].
  - eapply decimal_one; eassumption.
  - eapply replaced_one; eassumption.
  - eapply interspersed_one; eassumption.
Qed.
