(** Proofs about decoding. *)
From Verif Require Import Base Lib Utf8 DecodeSpec.

Definition shape (l : list N) : bool :=
  match l with
  | [b] => N.ltb b 128
  | [b; c1] => negb (N.ltb b 128) && between 194 223 b && cont_byte c1
  | [b; c1; c2] => negb (N.ltb b 128) && negb (between 194 223 b) && between 224 239 b && second3 b c1 && cont_byte c2
  | [b; c1; c2; c3] => negb (N.ltb b 128) && negb (between 194 223 b) && negb (between 224 239 b) && between 240 244 b &&
      second4 b c1 && cont_byte c2 && cont_byte c3
  | _ => false
  end.
Lemma all_true (l : list bool) : Forall (fun b => b = true) l -> fold_left andb l true = true.
Proof. induction 1; cbn; subst; auto. Qed.
Lemma char_shape c : scalar c -> shape (utf8_char c) = true.
Proof.
  intro S. unfold utf8_char, scalar in *.
  destruct (N.ltb c 128) eqn:E1; [cbn [shape]; exact E1|].
  destruct (N.ltb c 2048) eqn:E2.
  { cbn [shape]. rewrite (proj2 (N.ltb_ge _ _)) by Ndiv.
    replace (between 194 223 (192 + c / 64)) with true by (ranges; Ndiv).
    replace (cont_byte (128 + c mod 64)) with true by (ranges; Ndiv). reflexivity. }
  destruct (N.ltb c 65536) eqn:E3.
  { cbn [shape]. rewrite (proj2 (N.ltb_ge _ _)) by Ndiv.
    replace (between 194 223 (224 + c / 4096)) with false by (ranges; Ndiv).
    replace (between 224 239 (224 + c / 4096)) with true by (ranges; Ndiv).
    replace (second3 (224 + c / 4096) (128 + (c / 64) mod 64)) with true.
    2:{ symmetry. ranges. destruct (N.eqb (224 + c / 4096) 224) eqn:F; [Ndiv|].
        destruct (N.eqb (224 + c / 4096) 237) eqn:F2; Ndiv. }
    replace (cont_byte (128 + c mod 64)) with true by (ranges; Ndiv). reflexivity. }
  cbn [shape]. rewrite (proj2 (N.ltb_ge _ _)) by Ndiv.
  replace (between 194 223 (240 + c / 262144)) with false by (ranges; Ndiv).
  replace (between 224 239 (240 + c / 262144)) with false by (ranges; Ndiv).
  replace (between 240 244 (240 + c / 262144)) with true by (ranges; Ndiv).
  replace (second4 (240 + c / 262144) (128 + (c / 4096) mod 64)) with true.
  2:{ symmetry. ranges. destruct (N.eqb (240 + c / 262144) 240) eqn:F; [Ndiv|].
      destruct (N.eqb (240 + c / 262144) 244) eqn:F2; Ndiv. }
  replace (cont_byte (128 + (c / 64) mod 64)) with true by (ranges; Ndiv).
  replace (cont_byte (128 + c mod 64)) with true by (ranges; Ndiv). reflexivity.
Qed.
Ltac bools := repeat match goal with
  | H : (_ && _)%bool = true |- _ => apply Bool.andb_true_iff in H as [? ?]
  | H : negb _ = true |- _ => apply Bool.negb_true_iff in H
  end.
Ltac decoded := repeat match goal with H : ?x = true |- context [?x] => rewrite H | H : ?x = false |- context [?x] => rewrite H end.
Lemma shape_dec l r : shape l = true -> exists c, scalar c /\ utf8_char c = l /\ utf8_dec (l ++ r) = Some c :: utf8_dec r.
Proof.
  intro H.
  assert (G : exists c, utf8_dec l = [Some c]).
  { destruct l as [|b [|c1 [|c2 [|c3 [|]]]]]; cbn [shape] in H; try discriminate; bools; cbn [utf8_dec]; decoded; eexists; reflexivity. }
  destruct G as [c G]. exists c.
  destruct (strict_inv l [c]) as [U F]; [unfold utf8_strict; rewrite G; reflexivity|].
  inversion F; subst. cbn [utf8 flat_map] in *. rewrite app_nil_r in *. split; [assumption|]. split; [reflexivity|]. apply dec_char. assumption.
Qed.
Lemma begins_shape bs more : more <> [] -> shape (bs ++ more) = true -> begins bs.
Proof. intros N S. destruct (shape_dec _ [] S) as (c & C & U & _). exists c, more. auto. Qed.
Lemma shape_begins bs : begins bs -> exists more, more <> [] /\ shape (bs ++ more) = true.
Proof. intros (c & m & S & N & U). exists m. split; [exact N|]. rewrite <- U. apply char_shape, S. Qed.

Ltac noshape H := repeat match type of H with
  | shape (_ ++ ?m) = true => destruct m; cbn [shape app] in H; try discriminate H
  end.
Ltac clash := bools; congruence.

Ltac front1 x S E := destruct x as [|? x]; cbn [app] in E; [cbn [shape] in S; clash|];
  try discriminate E; try (injection E as <- E); cbn [shape] in S; try discriminate S.
Ltac front := let x := fresh "x" in let y := fresh "y" in let S := fresh "S" in let E := fresh "E" in
  intros x y S E; do 5 (try (front1 x S E)).
Ltac last1 m S := destruct m as [|? m]; cbn [app shape] in S; [try discriminate S; try clash|try discriminate S].
Ltac last := let m := fresh "m" in let E := fresh "E" in let S := fresh "S" in
  intros ? ? m E S; try discriminate E; try (injection E as <- E); cbn [app] in S;
  do 5 (try (last1 m S)).
Ltac now_shape := cbn [app shape]; decoded; try reflexivity.
Ltac now_dec := cbn [utf8_dec]; decoded; reflexivity.
(** One step of the decoder. *)
Lemma dec_step b r : 
  (exists c bs, scalar c /\ b :: r = utf8_char c ++ bs /\ utf8_dec (b :: r) = Some c :: utf8_dec bs) \/
  (exists bad bs, ill_formed bad bs /\ b :: r = bad ++ bs /\ utf8_dec (b :: r) = None :: utf8_dec bs).
Proof.
  assert (G : forall l s, shape l = true -> b :: r = l ++ s ->
     exists c bs, scalar c /\ b :: r = utf8_char c ++ bs /\ utf8_dec (b :: r) = Some c :: utf8_dec bs).
  { intros l s S E. destruct (shape_dec l s S) as (c & C & U & D). exists c, s. rewrite E, U. auto. }
  assert (B : forall bad s, bad <> [] -> b :: r = bad ++ s -> 
    (forall x y, shape x = true -> b :: r <> x ++ y) ->
    ((exists m, m <> [] /\ shape (bad ++ m) = true) \/ length bad = 1) ->
    (forall x q m, s = x :: q -> shape ((bad ++ [x]) ++ m) <> true) -> ill_formed bad s).
  { intros bad s N E C M X. split; [exact N|]. split; [|split].
    - rewrite <- E. intros c y S. apply C, char_shape, S.
    - destruct M as [(m & N1 & M)|M]; [left; eapply begins_shape; eauto|right; exact M].
    - intros x q E2 Bg. destruct (shape_begins _ Bg) as (m & _ & S). exact (X x q m E2 S). }
  assert (W : forall bad s m, bad <> [] -> b :: r = bad ++ s -> (forall x y, shape x = true -> b :: r <> x ++ y) ->
    (m <> [] /\ shape (bad ++ m) = true \/ length bad = 1) -> (forall x q m, s = x :: q -> shape ((bad ++ [x]) ++ m) <> true) ->
    utf8_dec (b :: r) = None :: utf8_dec s ->
    exists bad bs, ill_formed bad bs /\ b :: r = bad ++ bs /\ utf8_dec (b :: r) = None :: utf8_dec bs).
  { intros bad s m N E C M X D. exists bad, s. split; [apply B; auto; destruct M; eauto|auto]. }
  clear B.
  destruct (N.ltb b 128) eqn:E1.
  { left. apply (G [b] r); [exact E1|reflexivity]. }
  destruct (between 194 223 b) eqn:E2.
  { destruct r as [|c1 r1].
    - right. apply (W [b] [] [128%N]); [discriminate|reflexivity|front|left; split; [discriminate|now_shape]|last|now_dec].
    - destruct (cont_byte c1) eqn:C1.
      + left. apply (G [b; c1] r1); [now_shape|reflexivity].
      + right. apply (W [b] (c1 :: r1) []); [discriminate|reflexivity|front|right; reflexivity|last|now_dec]. }
  destruct (between 224 239 b) eqn:E3.
  { set (k := if N.eqb b 224 then 160%N else 128%N).
    assert (K : second3 b k = true) by (unfold k, second3; destruct (N.eqb b 224); [reflexivity|destruct (N.eqb b 237); reflexivity]).
    destruct r as [|c1 r1].
    - right. apply (W [b] [] [k; 128%N]); [discriminate|reflexivity|front|left; split; [discriminate|now_shape]|last|now_dec].
    - destruct (second3 b c1) eqn:C1.
      + destruct r1 as [|c2 r2].
        * right. apply (W [b; c1] [] [128%N]); [discriminate|reflexivity|front|left; split; [discriminate|now_shape]|last|now_dec].
        * destruct (cont_byte c2) eqn:C2.
          -- left. apply (G [b; c1; c2] r2); [now_shape|reflexivity].
          -- right. apply (W [b; c1] (c2 :: r2) [128%N]); [discriminate|reflexivity|front|left; split; [discriminate|now_shape]|last|now_dec].
      + right. apply (W [b] (c1 :: r1) []); [discriminate|reflexivity|front|right; reflexivity|last|now_dec]. }
  destruct (between 240 244 b) eqn:E4.
  { set (k := if N.eqb b 240 then 144%N else 128%N).
    assert (K : second4 b k = true) by (unfold k, second4; destruct (N.eqb b 240); [reflexivity|destruct (N.eqb b 244); reflexivity]).
    destruct r as [|c1 r1].
    - right. apply (W [b] [] [k; 128%N; 128%N]); [discriminate|reflexivity|front|left; split; [discriminate|now_shape]|last|now_dec].
    - destruct (second4 b c1) eqn:C1.
      + destruct r1 as [|c2 r2].
        * right. apply (W [b; c1] [] [128%N; 128%N]); [discriminate|reflexivity|front|left; split; [discriminate|now_shape]|last|now_dec].
        * destruct (cont_byte c2) eqn:C2.
          -- destruct r2 as [|c3 r3].
             ++ right. apply (W [b; c1; c2] [] [128%N]); [discriminate|reflexivity|front|left; split; [discriminate|now_shape]|last|now_dec].
             ++ destruct (cont_byte c3) eqn:C3.
                ** left. apply (G [b; c1; c2; c3] r3); [now_shape|reflexivity].
                ** right. apply (W [b; c1; c2] (c3 :: r3) [128%N]); [discriminate|reflexivity|front|left; split; [discriminate|now_shape]|last|now_dec].
          -- right. apply (W [b; c1] (c2 :: r2) [128%N; 128%N]); [discriminate|reflexivity|front|left; split; [discriminate|now_shape]|last|now_dec].
      + right. apply (W [b] (c1 :: r1) []); [discriminate|reflexivity|front|right; reflexivity|last|now_dec]. }
  right. apply (W [b] r []); [discriminate|reflexivity|front|right; reflexivity|last|now_dec].
Qed.

Lemma lossy_decodes : forall n bs, length bs <= n -> decodes bs (utf8_lossy bs).
Proof.
  unfold utf8_lossy. induction n as [|n IH]; intros [|b r] Ln; cbn [length] in Ln; try lia; try apply d_end.
  destruct (dec_step b r) as [(c & bs & S & E & D)|(bad & bs & W & E & D)]; rewrite D, E; cbn [map].
  - apply d_char; [exact S|]. apply IH. apply (f_equal (@length N)) in E. rewrite app_length in E. cbn [length] in E.
    assert (0 < length (utf8_char c)) by (unfold utf8_char; repeat destruct (N.ltb _ _); cbn; lia). lia.
  - apply d_bad; [exact W|]. apply IH. apply (f_equal (@length N)) in E. rewrite app_length in E. cbn [length] in E.
    destruct W as [W _]. destruct bad; [congruence|]. cbn [length] in E. lia.
Qed.
Lemma begins_prefix a x b : begins (a ++ x :: b) -> begins (a ++ [x]).
Proof.
  intros (c & m & S & N & U). exists c, (b ++ m). split; [exact S|]. split; [destruct b; [exact N|discriminate]|].
  rewrite U, <- !app_assoc. reflexivity.
Qed.
Lemma app_cases {A} : forall (a b c d : list A), a ++ b = c ++ d ->
  (a = c /\ b = d) \/ (exists x l, a = c ++ x :: l /\ d = x :: l ++ b) \/ (exists x l, c = a ++ x :: l /\ b = x :: l ++ d).
Proof.
  induction a as [|x a IH]; intros b [|y c] d E; cbn in E.
  - left. auto.
  - right. right. exists y, c. auto.
  - right. left. exists x, a. auto.
  - injection E as -> E. destruct (IH b c d E) as [[-> ->]|[(z & l & -> & ->)|(z & l & -> & ->)]]; [left; auto| |];
      right; [left|right]; exists z, l; auto.
Qed.
Lemma ill_unique b1 s1 b2 s2 : ill_formed b1 s1 -> ill_formed b2 s2 -> b1 ++ s1 = b2 ++ s2 -> b1 = b2 /\ s1 = s2.
Proof.
  assert (Z : forall b s x l t, ill_formed b s -> ill_formed (b ++ x :: l) t -> s = x :: l ++ t -> False).
  { intros b s x l t (N & _ & _ & M) (_ & _ & [B|B] & _) E.
    - apply (M x (l ++ t) E). eapply begins_prefix, B.
    - rewrite app_length in B. destruct b; [congruence|]. cbn in B. lia. }
  intros W1 W2 E. destruct (app_cases _ _ _ _ E) as [D|[(x & l & -> & Es)|(x & l & -> & Es)]]; [exact D| |]; exfalso; eauto.
Qed.
Lemma char_unique c1 s1 c2 s2 : scalar c1 -> scalar c2 -> utf8_char c1 ++ s1 = utf8_char c2 ++ s2 -> c1 = c2 /\ s1 = s2.
Proof.
  intros S1 S2 E. pose proof (dec_char c1 s1 S1) as D1. rewrite E, dec_char in D1 by exact S2. injection D1 as -> _.
  split; [reflexivity|]. eapply app_inv_head, E.
Qed.
Lemma decodes_unique : forall bs t, decodes bs t -> forall bs' t', bs = bs' -> decodes bs' t' -> t = t'.
Proof.
  assert (Nn : forall c, utf8_char c <> []) by (intro c; unfold utf8_char; repeat destruct (N.ltb _ _); discriminate).
  assert (Nb : forall b s, ill_formed b s -> b <> []) by (intros b s [N _]; exact N).
  induction 1 as [|c bs t S D IH|bad bs t W D IH]; intros bs' t' E D'; destruct D' as [|c' bs' t' S' D'|bad' bs' t' W' D']; try reflexivity.
  - exfalso. destruct (utf8_char c') eqn:X; [exact (Nn c' X)|discriminate].
  - exfalso. destruct bad'; [exact (Nb _ _ W' eq_refl)|discriminate].
  - exfalso. destruct (utf8_char c) eqn:X; [exact (Nn c X)|discriminate].
  - destruct (char_unique _ _ _ _ S S' E) as [-> Es]. f_equal. eapply IH; eauto.
  - exfalso. destruct W' as (_ & F & _). exact (F c bs S (eq_sym E)).
  - exfalso. destruct bad; [exact (Nb _ _ W eq_refl)|discriminate].
  - exfalso. destruct W as (_ & F & _). exact (F c' bs' S' E).
  - destruct (ill_unique _ _ _ _ W W' E) as [-> Es]. f_equal. eapply IH; eauto.
Qed.

Lemma bad_high bad rest : ill_formed bad rest -> Forall (fun b => (128 <= b)%N) bad.
Proof.
  intros (N & F & B & _). apply Forall_forall. intros x I. destruct (N.leb 128 x) eqn:E; [lia|exfalso].
  assert (X : scalar x /\ utf8_char x = [x]).
  { split; [unfold scalar; lia|]. unfold utf8_char. rewrite (proj2 (N.ltb_lt _ _)) by lia. reflexivity. }
  destruct X as [S U]. destruct B as [(c & m & Sc & Nm & C)|B].
  - unfold utf8_char in C. destruct (N.ltb c 128) eqn:E1.
    { destruct bad as [|? [|]]; [congruence| |discriminate]. destruct m; [congruence|discriminate]. }
    assert (Z : Forall (fun b => (128 <= b)%N) (bad ++ m)).
    { rewrite <- C. destruct (N.ltb c 2048); [|destruct (N.ltb c 65536)]; repeat constructor; lia. }
    apply Forall_app in Z as [Z _]. rewrite Forall_forall in Z. specialize (Z x I). lia.
  - destruct bad as [|y [|]]; try discriminate. destruct I as [->|[]]. apply (F x rest S). rewrite U. reflexivity.
Qed.
Lemma ascii_cuts : forall bs t, decodes bs t -> forall a x b, bs = a ++ x :: b -> (x < 128)%N ->
  exists ta tb, t = ta ++ x :: tb /\ decodes a ta /\ decodes b tb.
Proof.
  assert (R : forall bad r, (ill_formed bad r -> forall a x b, r = a ++ x :: b -> (x < 128)%N -> ill_formed bad a)).
  { intros bad r (N & F & B & M) a x b E Lx. split; [exact N|]. split; [|split; [exact B|]].
    - intros c y S Ec. apply (F c (y ++ x :: b) S). rewrite E, app_assoc, Ec, <- app_assoc. reflexivity.
    - intros z q -> . apply (M z (q ++ x :: b)). rewrite E. reflexivity. }
  induction 1 as [|c bs t S D IH|bad bs t W D IH]; intros a x b E Lx.
  - destruct a; discriminate.
  - destruct (app_cases _ _ _ _ E) as [[Ea Eb]|[(y & l & Ec & El)|(y & l & -> & Eb)]].
    + subst. exists [c]. destruct (IH [] x b eq_refl Lx) as (ta & tb & -> & Da & Db).
      inversion Da as [Ha Hb|c' bs' t' ? ? Ha Hb|bad' bs' t' W' ? Ha Hb].
      * exists tb. split; [reflexivity|]. split; [|exact Db]. rewrite <- (app_nil_r (utf8_char c)). apply d_char; [exact S|apply d_end].
      * exfalso. unfold utf8_char in Ha. repeat destruct (N.ltb _ _); discriminate.
      * exfalso. destruct W' as [N' _]. destruct bad'; [congruence|discriminate].
    + injection El as -> Eb. unfold utf8_char in Ec. destruct (N.ltb c 128) eqn:E1.
      * destruct a as [|? [|]]; [|discriminate|discriminate]. injection Ec as -> <-. cbn in Eb. subst.
        exists [], t. split; [reflexivity|]. split; [apply d_end|exact D].
      * exfalso. assert (Z : Forall (fun b => (128 <= b)%N) (a ++ y :: l)).
        { rewrite <- Ec. destruct (N.ltb c 2048); [|destruct (N.ltb c 65536)]; repeat constructor; lia. }
        apply Forall_app in Z as [_ Z]. inversion Z; subst. lia.
    + destruct (IH (y :: l) x b Eb Lx) as (ta & tb & -> & Da & Db). exists (c :: ta), tb.
      split; [reflexivity|]. split; [apply d_char; assumption|exact Db].
  - pose proof (bad_high _ _ W) as H.
    destruct (app_cases _ _ _ _ E) as [[Ea Eb]|[(y & l & Ec & El)|(y & l & -> & Eb)]].
    + subst. exists [65533%N]. destruct (IH [] x b eq_refl Lx) as (ta & tb & -> & Da & Db).
      inversion Da as [Ha Hb|c' bs' t' ? ? Ha Hb|bad' bs' t' W' ? Ha Hb].
      * exists tb. split; [reflexivity|]. split; [|exact Db]. rewrite <- (app_nil_r a). apply d_bad; [|apply d_end].
        eapply (R a (x :: b)); [exact W|reflexivity|exact Lx].
      * exfalso. unfold utf8_char in Ha. repeat destruct (N.ltb _ _); discriminate.
      * exfalso. destruct W' as [N' _]. destruct bad'; [congruence|discriminate].
    + exfalso. injection El as -> _. rewrite Ec in H. apply Forall_app in H as [_ H]. inversion H; subst. lia.
    + destruct (IH (y :: l) x b Eb Lx) as (ta & tb & -> & Da & Db). exists (65533%N :: ta), tb.
      split; [reflexivity|]. split; [|exact Db]. apply d_bad; [|exact Da]. eapply R; [exact W|exact Eb|exact Lx].
Qed.
