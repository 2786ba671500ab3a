(** Proofs about the header fields that replace and enclose write. *)
From Verif Require Import Base Lib Var Value Flags Comparator Message EditHeader EditHeaderSpec EditHeaderProofs Mime Build BuildSpec FieldsSpec.
Import ListNotations.
Local Open Scope list_scope.

Lemma utf8_char_ascii c b : In b (utf8_char c) -> (b < 128)%N -> b = c.
Proof.
  unfold utf8_char. intros H B.
  destruct (N.ltb c 128) eqn:E1; [destruct H as [H|[]]; congruence|].
  assert (X : forall x, (x < 64)%N -> (128 + x < 128)%N -> False) by (intros; lia).
  destruct (N.ltb c 2048); [|destruct (N.ltb c 65536)]; cbn in H;
    repeat (destruct H as [H|H]; [exfalso; rewrite <- H in B; lia|]); destruct H.
Qed.
Lemma utf8_ascii t b : In b (utf8 t) -> (b < 128)%N -> In b t.
Proof.
  unfold utf8. intros H B. apply in_flat_map in H as (c & I & H). rewrite (utf8_char_ascii c b H B). exact I.
Qed.
Lemma field_one_line n v : unbroken n -> unbroken v -> one_line (field n v).
Proof.
  intros A B. exists (utf8 n ++ utf8 (lit ": ") ++ utf8 v). unfold field, crlf. rewrite <- !app_assoc. split; [reflexivity|].
  assert (C : forall c, (c = 13 \/ c = 10)%N -> ~ In c (utf8 n ++ utf8 (lit ": ") ++ utf8 v)).
  { intros c Hc H. assert (c < 128)%N by lia.
    apply in_app_iff in H as [H|H]; [|apply in_app_iff in H as [H|H]].
    - apply (A c); [apply utf8_ascii; assumption|]. unfold breaks_header, c_cr, c_lf. tauto.
    - cbn in H. destruct H as [H|[H|[]]]; subst; destruct Hc; discriminate.
    - apply (B c); [apply utf8_ascii; assumption|]. unfold breaks_header, c_cr, c_lf. tauto. }
  split; apply C; auto.
Qed.
Lemma unbroken_lit s : forallb (fun c => negb (N.eqb c 13 || N.eqb c 10)) (lit s) = true -> unbroken (lit s).
Proof.
  intros H c I J. rewrite forallb_forall in H. specialize (H c I). apply negb_true_iff, orb_false_iff in H as [A B].
  apply N.eqb_neq in A, B. unfold breaks_header, c_cr, c_lf in J. tauto.
Qed.
Lemma unbroken_clean max s : unbroken (remove_crlf max s).
Proof. intros c I. pose proof (remove_crlf_clean max s) as H. rewrite Forall_forall in H. auto. Qed.
Lemma unbroken_app a b : unbroken a -> unbroken b -> unbroken (a ++ b).
Proof. intros A B c I. apply in_app_iff in I as [I|I]; auto. Qed.
Lemma unbroken_incl a b : incl a b -> unbroken b -> unbroken a.
Proof. intros A B c I. auto. Qed.
Ltac ub := apply unbroken_lit; vm_compute; reflexivity.

(** What [replace] adds. *)
Lemma root_fields_new E raw s f mime hs :
  unbroken (me_from E) -> unbroken (me_date E) -> unbroken (me_msgid E) ->
  exists new, root_fields E raw s f mime hs = flat_map (after_replace raw (given_subject s) (given_subject f)) hs ++ new /\
    Forall one_line new /\ List.length new <= 5.
Proof.
  intros A B C. unfold root_fields. eexists. split; [reflexivity|]. split.
  2: { rewrite !app_length. destruct s as [[|? ?]|], (existsb _ hs), mime; cbn; lia. }
  repeat (apply Forall_app; split).
  - apply Forall_cons; [|apply Forall_nil]. apply field_one_line; [ub|].
    destruct f as [[|c f]|]; try exact A. apply unbroken_clean.
  - destruct s as [[|c s]|]; try apply Forall_nil. apply Forall_cons; [|apply Forall_nil].
    apply field_one_line; [ub|apply unbroken_clean].
  - destruct (existsb _ hs); [apply Forall_nil|]. apply Forall_cons; [|apply Forall_nil]. apply field_one_line; [ub|exact B].
  - apply Forall_cons; [|apply Forall_nil]. apply field_one_line; [ub|exact C].
  - destruct mime; [apply Forall_nil|]. apply Forall_cons; [|apply Forall_nil]. apply field_one_line; ub.
Qed.

(** What [enclose] adds. *)
Lemma split_colon1_spec : forall s n v, split_colon1 s = Some (n, v) -> s = n ++ 58%N :: v /\ ~ In 58%N n.
Proof.
  induction s as [|c s IH]; intros n v H; cbn in H; [discriminate|].
  destruct (N.eqb c 58) eqn:E.
  - injection H as <- <-. apply N.eqb_eq in E. subst. split; [reflexivity|]. intros [].
  - destruct (split_colon1 s) as [[n' v']|]; [|discriminate]. cbn in H. injection H as <- <-.
    destruct (IH _ _ eq_refl) as [-> B]. split; [reflexivity|]. intros [I|I]; [|auto].
    apply N.eqb_neq in E. congruence.
Qed.
Lemma trim_start_incl ws : forall s, incl (trim_start ws s) s.
Proof. induction s as [|c s IH]; cbn; [apply incl_refl|]. destruct (ws c); [apply incl_tl, IH|apply incl_refl]. Qed.
Lemma trim_incl ws s : incl (trim ws s) s.
Proof.
  unfold trim. intros c H. apply in_rev in H. apply trim_start_incl in H. apply in_rev in H. apply trim_start_incl in H. exact H.
Qed.
Lemma enclose_given_spec L M E h g : In g (enclose_given L M E h) -> taken L M E h (fst (snd g)) (snd (snd g)).
Proof.
  unfold enclose_given. destruct (split_colon1 h) as [[a b]|] eqn:S; [|intros []].
  destruct (split_colon1_spec _ _ _ S) as [A B]. cbv zeta.
  destruct (trim (chr_is_ws L) b) as [|c b'] eqn:T; [intros []|].
  destruct (hn_parse M (trim (chr_is_ws L) a)) as [hn|] eqn:P; [|intros []].
  destruct (existsb (hn_eqb hn) (me_protected E)) eqn:X; [intros []|]. intros [<-|[]]. cbn [fst snd].
  exists a, b, hn. split; [exact A|]. split; [exact B|]. split; [reflexivity|]. split; [apply unbroken_clean|].
  split; [destruct (remove_crlf_cut (me_max_header E) (c :: b')) as (rest & _ & Z & _); exact Z|].
  split; [exact P|]. intros p I. destruct (teqb_ic hn p) eqn:Y; [|reflexivity].
  assert (existsb (hn_eqb hn) (me_protected E) = true) by (apply existsb_exists; exists p; auto). congruence.
Qed.
Lemma enclosing_sources L M E st hs s n v : In (n, v) (enclosing_fields L M E st hs s) ->
  In n (map lit ["Content-Type"; "Subject"; "From"; "Date"; "Message-ID"]%string) \/
  exists h, In h hs /\ taken L M E h n v.
Proof.
  unfold enclosing_fields. cbv zeta. intros H.
  apply in_app_iff in H as [H|H].
  { left. cbn [In] in H. destruct H as [H|[H|[]]]; injection H as <- _; cbn; auto. }
  apply in_app_iff in H as [H|H].
  { right. apply in_map_iff in H as (g & G & H). apply in_flat_map in H as (h & I & H). exists h. split; [exact I|].
    apply enclose_given_spec in H. rewrite G in H. exact H. }
  left. apply in_app_iff in H as [H|H]; [|apply in_app_iff in H as [H|H]];
    match type of H with In _ (if ?x then _ else _) => destruct x; [exfalso; exact H|] end; destruct H as [H|[]]; injection H as <- _; cbn; auto 6.
Qed.
Lemma enclosing_one_line L M E st hs s :
  unbroken (me_boundary E) -> unbroken (me_from E) -> unbroken (me_date E) -> unbroken (me_msgid E) ->
  (forall t, me_subject E (fview st) = Some t -> unbroken t) ->
  (forall h a b, In h hs -> h = a ++ 58%N :: b -> ~ In 58%N a -> unbroken a) ->
  Forall (fun x => one_line (field (fst x) (snd x))) (enclosing_fields L M E st hs s).
Proof.
  intros A B C D F G. unfold enclosing_fields. cbv zeta. repeat (apply Forall_app; split).
  - apply Forall_cons; [|apply Forall_cons; [|apply Forall_nil]]; cbn [fst snd]; apply field_one_line; try ub.
    + apply unbroken_app; [ub|apply unbroken_app; [exact A|ub]].
    + destruct s; [apply unbroken_clean|]. destruct (me_subject E (fview st)) as [t|]; [auto|]. intros c [].
  - apply Forall_forall. intros x H. apply in_map_iff in H as (g & <- & H). apply in_flat_map in H as (h & I & H).
    apply enclose_given_spec in H as (a & b & hn & J & K & N & V & _). apply field_one_line; [|exact V].
    rewrite N. eapply unbroken_incl; [apply trim_incl|]. eauto.
  - match goal with |- Forall _ (if ?x then _ else _) => destruct x end; [apply Forall_nil|].
    apply Forall_cons; [|apply Forall_nil]. apply field_one_line; [ub|assumption].
  - match goal with |- Forall _ (if ?x then _ else _) => destruct x end; [apply Forall_nil|].
    apply Forall_cons; [|apply Forall_nil]. apply field_one_line; [ub|assumption].
  - match goal with |- Forall _ (if ?x then _ else _) => destruct x end; [apply Forall_nil|].
    apply Forall_cons; [|apply Forall_nil]. apply field_one_line; [ub|assumption].
Qed.
