(** Proofs about the operators of expressions. *)
From Verif Require Import Base Lib Var Value Expr ValueSpec ValueProofs OperatorSpec.
Require Import Coq.Floats.SpecFloat.

Lemma vbool_answers b (P : Prop) : (b = true <-> P) -> answers (vbool b) P.
Proof. intros H. unfold answers, vbool. destruct b; [left|right]; split; auto; [tauto|]. intros Q. apply H in Q. discriminate. Qed.

Lemma f64_zero_eqb f : f64_eqb f f64_zero = true <-> f = S754_zero false \/ f = S754_zero true.
Proof. destruct f as [[]|[]| |[] m e]; unfold f64_eqb, SFeqb, f64_zero; cbn; split; intro H; auto; try discriminate; destruct H; discriminate. Qed.

Lemma to_bool_holds v : to_bool v = true <-> holds v.
Proof.
  destruct v as [[|c s]|n|f|[|x l]]; cbn; try (split; [discriminate|congruence]); try (split; [congruence|reflexivity]).
  - destruct (Z.eqb_spec n 0); cbn; split; intro; try congruence; tauto.
  - pose proof (f64_zero_eqb f) as H. destruct (f64_eqb f f64_zero); cbn.
    + split; [discriminate|]. intros [A B]. destruct (proj1 H eq_refl); contradiction.
    + split; [intros _|reflexivity]. split; intro E; assert (false = true) by (apply H; auto); discriminate.
Qed.

(** *** Comparison *)
Lemma sf_compare_swap a b :
  SFcompare b a = match SFcompare a b with Some c => Some (CompOpp c) | None => None end.
Proof.
  destruct a as [[]|[]| |[] m e], b as [[]|[]| |[] m' e']; cbn; try reflexivity;
    rewrite (Z.compare_antisym e e'); destruct (e ?= e')%Z; cbn; try reflexivity;
    repeat rewrite Pos.compare_cont_spec; cbn; rewrite (Pos.compare_antisym m m'); destruct (m ?= m')%positive; reflexivity.
Qed.
Lemma sf_eqb_compare a b : SFeqb a b = true <-> SFcompare a b = Some Eq.
Proof. unfold SFeqb. destruct (SFcompare a b) as [[]|]; split; congruence. Qed.

Section C.
  Variable L : rustlib.

  (** Induction over a value and the elements of arrays. *)
  Lemma var_rec (P : var -> Prop) :
    (forall s, P (VStr s)) -> (forall z, P (VInt z)) -> (forall f, P (VFloat f)) ->
    (forall l, (forall x, In x l -> P x) -> P (VArr l)) -> forall v, P v.
  Proof.
    intros H1 H2 H3 H4. fix IH 1. intros [s|z|f|l]; [apply H1|apply H2|apply H3|apply H4].
    induction l as [|y l IHl]; intros x; [intros []|intros [H|H]; [exact (eq_ind y P (IH y) x H)|apply IHl; exact H]].
  Qed.

  Definition eqb_list := fix go (l m : list var) := match l, m with
                       | [], [] => true
                       | x :: l', y :: m' => v_eqb L x y && go l' m'
                       | _, _ => false
                       end.
  Definition cmp_list := fix go (l m : list var) := match l, m with
                       | [], [] => Some Eq
                       | [], _ :: _ => Some Lt
                       | _ :: _, [] => Some Gt
                       | x :: l', y :: m' =>
                           match v_cmp L x y with Some Eq => go l' m' | c => c end
                       end.
  Lemma eqb_arr l m : v_eqb L (VArr l) (VArr m) = eqb_list l m.
  Proof. reflexivity. Qed.
  Lemma cmp_arr l m : v_cmp L (VArr l) (VArr m) = cmp_list l m.
  Proof. reflexivity. Qed.

  Definition numeric (v : var) : Prop := match v with VInt _ | VFloat _ => True | _ => False end.
  Lemma parse_numeric v : numeric (parse_number L v).
  Proof.
    destruct v as [[|c s]|n|f|[|x l]]; cbn; auto.
    destruct (parse_i64 (c :: s)); cbn; auto. destruct (f64_parse L (c :: s)); cbn; auto.
  Qed.

  Lemma num_eqb_cmp a b : num_eqb a b = true <-> num_cmp a b = Some Eq.
  Proof.
    destruct a as [s|x|f|l], b as [s'|y|g|l']; cbn; try (split; discriminate).
    - rewrite Z.eqb_eq. split; [intros ->; rewrite Z.compare_refl; reflexivity|]. intros [= E]. apply Z.compare_eq. exact E.
    - apply sf_eqb_compare.
    - unfold f64_eqb, f64_cmp. rewrite sf_eqb_compare, sf_compare_swap.
      destruct (SFcompare f (f64_of_Z y)) as [[]|]; cbn; split; congruence.
    - apply sf_eqb_compare.
  Qed.
  Lemma num_cmp_swap a b : numeric a -> numeric b ->
    num_cmp b a = match num_cmp a b with Some c => Some (CompOpp c) | None => None end.
  Proof.
    destruct a as [s|x|f|l], b as [s'|y|g|l']; cbn; try tauto; intros _ _; try apply sf_compare_swap.
    rewrite Z.compare_antisym. reflexivity.
  Qed.
  Lemma num_eqb_swap a b : numeric a -> numeric b -> num_eqb b a = num_eqb a b.
  Proof.
    intros A B. apply Bool.eq_true_iff_eq. rewrite !num_eqb_cmp, (num_cmp_swap a b A B).
    destruct (num_cmp a b) as [[]|]; cbn; split; congruence.
  Qed.

  Lemma tcmp_eq : forall a b, tcmp a b = Eq <-> a = b.
  Proof.
    induction a as [|x a IH]; intros [|y b]; cbn; try (split; congruence).
    destruct (N.compare_spec x y); cbn; [subst; rewrite IH|..]; split; intro E; try congruence; inversion E; subst; lia.
  Qed.
  Lemma tcmp_swap : forall a b, tcmp b a = CompOpp (tcmp a b).
  Proof.
    induction a as [|x a IH]; intros [|y b]; cbn; auto.
    rewrite (N.compare_antisym x y). destruct (N.compare x y); cbn; auto.
  Qed.

  Lemma eqb_cmp : forall a b, v_eqb L a b = true <-> v_cmp L a b = Some Eq.
  Proof.
    intros a. pattern a. apply var_rec; clear a.
    - intros s [s'|z|f|m]; try apply num_eqb_cmp; cbn [v_eqb v_cmp].
      + rewrite teqb_spec, <- tcmp_eq. split; congruence.
      + split; discriminate.
    - intros z [s'|y|f|m]; try apply num_eqb_cmp. cbn; split; discriminate.
    - intros z [s'|y|f|m]; try apply num_eqb_cmp. cbn; split; discriminate.
    - intros l IH [s'|y|f|m]; try (cbn; split; discriminate).
      rewrite eqb_arr, cmp_arr. revert m. induction l as [|x l IHl]; intros [|y m]; cbn [eqb_list cmp_list]; try (split; congruence).
      specialize (IHl (fun z H => IH z (or_intror H)) m). rewrite Bool.andb_true_iff, IHl, (IH x (or_introl eq_refl) y).
      destruct (v_cmp L x y) as [[]|]; split; intros E; try (destruct E; congruence); try congruence; tauto.
  Qed.

  Lemma eqb_swap : forall a b, v_eqb L b a = v_eqb L a b.
  Proof.
    intros a. pattern a. apply var_rec; clear a.
    - intros s [s'|z|f|m]; cbn [v_eqb]; auto; try (apply num_eqb_swap; [apply parse_numeric|exact Logic.I]).
      apply Bool.eq_true_iff_eq. rewrite !teqb_spec. split; congruence.
    - intros z [s'|y|f|m]; cbn [v_eqb]; auto; try (apply num_eqb_swap; [exact Logic.I|exact Logic.I || apply parse_numeric]).
    - intros z [s'|y|f|m]; cbn [v_eqb]; auto; try (apply num_eqb_swap; [exact Logic.I|exact Logic.I || apply parse_numeric]).
    - intros l IH [s'|y|f|m]; try reflexivity.
      rewrite !eqb_arr. revert m. induction l as [|x l IHl]; intros [|y m]; cbn [eqb_list]; auto.
      rewrite (IHl (fun z H => IH z (or_intror H)) m), (IH x (or_introl eq_refl) y). reflexivity.
  Qed.

  Lemma cmp_swap : forall a b, ~ clash a b ->
    v_cmp L b a = match v_cmp L a b with Some c => Some (CompOpp c) | None => None end.
  Proof.
    intros a. pattern a. apply var_rec; clear a.
    - intros s [s'|z|f|m] C; cbn [v_cmp]; try (apply num_cmp_swap; [apply parse_numeric|exact Logic.I]).
      + rewrite tcmp_swap. reflexivity.
      + destruct C. constructor.
    - intros z [s'|y|f|m] C; cbn [v_cmp]; auto; try (apply num_cmp_swap; [exact Logic.I|exact Logic.I || apply parse_numeric]).
    - intros z [s'|y|f|m] C; cbn [v_cmp]; auto; try (apply num_cmp_swap; [exact Logic.I|exact Logic.I || apply parse_numeric]).
    - intros l IH [s'|y|f|m] C; try reflexivity. { destruct C. constructor. }
      rewrite !cmp_arr. revert m C. induction l as [|x l IHl]; intros [|y m] C; cbn [cmp_list]; auto.
      rewrite (IH x (or_introl eq_refl) y) by (intro D; apply C; eapply cl_elems; [left; reflexivity|left; reflexivity|exact D]).
      destruct (v_cmp L x y) as [[]|]; cbn; auto.
      apply (IHl (fun z H => IH z (or_intror H)) m). intro D. apply C. inversion D; subst. econstructor; [right|right|]; eassumption.
  Qed.

  Lemma sf_compare_none a b : SFcompare a b = None -> a = S754_nan \/ b = S754_nan.
  Proof. destruct a as [[]|[]| |[] m e], b as [[]|[]| |[] m' e']; cbn; try discriminate; auto; destruct (e ?= e')%Z; discriminate. Qed.
  Lemma shr_1_pos r : (0 <= shr_m r)%Z -> (0 <= shr_m (shr_1 r))%Z.
  Proof. destruct r as [[|[]|[]] a b]; cbn; lia. Qed.
  Lemma iter_shr_pos p : forall r, (0 <= shr_m r)%Z -> (0 <= shr_m (SpecFloat.iter_pos shr_1 p r))%Z.
  Proof. induction p; intros r H; cbn [SpecFloat.iter_pos]; repeat (apply IHp || apply shr_1_pos); exact H. Qed.
  Lemma shr_fexp_pos a b m e l : (0 <= m)%Z -> (0 <= shr_m (fst (shr_fexp a b m e l)))%Z.
  Proof.
    intros H. unfold shr_fexp, shr. destruct (fexp _ _ _ - e)%Z; cbn [fst]; try apply iter_shr_pos; destruct l as [|[]]; exact H.
  Qed.
  Lemma round_no_nan a b s m e : binary_round a b s m e <> S754_nan.
  Proof.
    unfold binary_round. destruct (shl_align m e _) as [mz ez]. unfold binary_round_aux.
    pose proof (shr_fexp_pos a b (Zpos mz) ez loc_Exact (Pos2Z.is_nonneg _)) as H.
    destruct (shr_fexp a b (Zpos mz) ez loc_Exact) as [r e']; cbn [fst] in H.
    assert (H' : (0 <= round_nearest_even (shr_m r) (loc_of_shr_record r))%Z).
    { unfold round_nearest_even. destruct (loc_of_shr_record r) as [|[]]; try lia. destruct (Z.even _); lia. }
    pose proof (shr_fexp_pos a b _ e' loc_Exact H') as H2.
    destruct (shr_fexp a b _ e' loc_Exact) as [r2 e2]; cbn [fst] in H2.
    destruct (shr_m r2); try discriminate. destruct (_ <=? _)%Z; discriminate. lia.
  Qed.
  Lemma of_Z_no_nan z : f64_of_Z z <> S754_nan.
  Proof. unfold f64_of_Z, binary_normalize. destruct z as [|p|p]; try discriminate; apply round_no_nan. Qed.

  Lemma num_cmp_none a b : numeric a -> numeric b -> num_cmp a b = None -> a = VFloat S754_nan \/ b = VFloat S754_nan.
  Proof.
    destruct a as [s|x|f|l], b as [s'|y|g|l']; cbn; try tauto; try discriminate; intros _ _ E; apply sf_compare_none in E as [E|E]; subst; auto;
      destruct (of_Z_no_nan _ E).
  Qed.
  Lemma parse_nan v : parse_number L v = VFloat S754_nan -> has_nan L v.
  Proof.
    destruct v as [[|c s]|n|f|[|x l]]; cbn; try discriminate.
    - destruct (parse_i64 (c :: s)); [discriminate|]. destruct (f64_parse L (c :: s)) eqn:E; [|discriminate].
      intros [= ->]. apply hn_text. exact E.
    - intros [= ->]. constructor.
  Qed.
  Lemma cmp_none : forall a b, v_cmp L a b = None -> has_nan L a \/ has_nan L b.
  Proof.
    assert (N : forall a b, numeric (parse_number L a) -> num_cmp (parse_number L a) (parse_number L b) = None -> has_nan L a \/ has_nan L b).
    { intros a b A E. apply num_cmp_none in E as [E|E]; auto using parse_nan, parse_numeric. }
    intros a. pattern a. apply var_rec; clear a.
    - intros s [s'|z|f|m]; try discriminate; intros E; apply N; auto; apply parse_numeric.
    - intros z [s'|y|f|m]; try discriminate; intros E; apply N; auto; apply parse_numeric.
    - intros z [s'|y|f|m]; try discriminate; intros E; apply N; auto; apply parse_numeric.
    - intros l IH [s'|y|f|m]; try discriminate. rewrite cmp_arr. revert m.
      induction l as [|x l IHl]; intros [|y m]; cbn [cmp_list]; try discriminate.
      destruct (v_cmp L x y) as [[]|] eqn:E; try discriminate; intros E'.
      + destruct (IHl (fun z H => IH z (or_intror H)) m E') as [D|D]; inversion D; subst; [left|right]; (eapply hn_elem; [right; eassumption|assumption]).
      + destruct (IH x (or_introl eq_refl) y E) as [D|D]; [left|right]; (eapply hn_elem; [left; reflexivity|exact D]).
  Qed.

  Lemma cmp_refl : forall a, v_cmp L a a = Some Eq \/ has_nan L a.
  Proof.
    intros a. pattern a. apply var_rec; clear a.
    - intros s. left. cbn. f_equal. apply tcmp_eq. reflexivity.
    - intros z. left. cbn. rewrite Z.compare_refl. reflexivity.
    - intros f. destruct (v_cmp L (VFloat f) (VFloat f)) as [c|] eqn:E; [left|right].
      + assert (X := cmp_swap (VFloat f) (VFloat f)). rewrite E in X. assert (Y : ~ clash (VFloat f) (VFloat f)) by (intro Q; inversion Q).
        specialize (X Y). destruct c; cbn in X; congruence.
      + apply cmp_none in E. tauto.
    - intros l IH. rewrite cmp_arr. induction l as [|x l IHl]; [left; reflexivity|]. cbn [cmp_list].
      destruct (IH x (or_introl eq_refl)) as [E|E].
      + rewrite E. destruct (IHl (fun z H => IH z (or_intror H))) as [D|D]; [left; exact D|right].
        inversion D; subst. eapply hn_elem; [right; eassumption|assumption].
      + right. eapply hn_elem; [left; reflexivity|exact E].
  Qed.

  (** *** Subtraction of arrays *)
  Lemma filter_without (out : var -> bool) l : without (fun x => out x = true) l (filter (fun x => negb (out x)) l).
  Proof. induction l as [|x l IH]; cbn; [constructor|]. destruct (out x) eqn:E; cbn; [apply w_drop|apply w_keep]; auto. rewrite E. discriminate. Qed.

  (** *** Arithmetic *)
  Lemma stands_parse v n : stands_for L v n -> parse_number L v = match n with NInt z => VInt z | NFloat f => VFloat f end.
  Proof.
    destruct 1; cbn; auto; destruct s as [|c s]; try congruence; rewrite H; auto; rewrite H1; auto.
  Qed.
  Lemma stands_total v : exists n, stands_for L v n.
  Proof.
    destruct v as [[|c s]|z|f|[|x l]]; try (eexists; constructor; fail).
    destruct (parse_i64 (c :: s)) eqn:E; [eexists; apply sf_decimal; eauto; discriminate|].
    destruct (f64_parse L (c :: s)) eqn:F; [eexists; apply sf_point; eauto; discriminate|eexists; apply sf_other; eauto; discriminate].
  Qed.

  (** *** Arrays as texts *)
  Definition piece (v : var) : text := match v with VArr _ => [] | v => v_text L v end.
  Lemma join_more : forall l res, res <> [] -> join_crlf L res l = lines (res :: map piece l).
  Proof.
    induction l as [|v l IH]; intros res H; [reflexivity|]. cbn [join_crlf map].
    destruct res as [|c res]; [congruence|].
    change (lines ((c :: res) :: piece v :: map piece l)) with ((c :: res) ++ [13; 10]%N ++ lines (piece v :: map piece l)).
    rewrite IH by discriminate. 
    assert (X : forall a l, lines ((((c :: res) ++ [c_cr; c_lf]) ++ a) :: l) = (c :: res) ++ [13; 10]%N ++ lines (a :: l)).
    { intros a [|b k]; cbn [lines]; rewrite <- !app_assoc; reflexivity. }
    destruct v; apply X.
  Qed.
  Lemma array_text l : v_text L (VArr l) = lines (from_first (map piece l)).
  Proof.
    cbn [v_text]. induction l as [|v l IH]; [reflexivity|]. cbn [join_crlf map from_first app].
    assert (X : forall t, join_crlf L t l = lines (from_first (t :: map piece l))).
    { intros [|c t]; [exact IH|]. rewrite join_more by discriminate. reflexivity. }
    destruct v; apply X.
  Qed.
End C.
