(** Proofs about the expression parser and machine. *)
From Verif Require Import Base Lib Var Value Expr ExprSpec.

(** Code of a tree. *)
Definition jmp_code (b : binop) (n : nat) : list instr :=
  match b with BAnd => [IJmp false (S n)] | BOr => [IJmp true (S n)] | _ => [] end.
Fixpoint comp (e : ast) : list instr :=
  match e with
  | EVar v => [IVar v]
  | EConst c => [IConst c]
  | EUn u e => comp e ++ [IUn u]
  | EBin b l r => comp l ++ jmp_code b (length (comp r)) ++ comp r ++ [IBin b]
  | EFun id es => flat_map comp es ++ [IFun id (length es)]
  | EArr es => flat_map comp es ++ [IArr (length es)]
  | EIdx e i => comp e ++ comp i ++ [IIdx]
  end.

(** *** Parsing *)
Scheme expr_ind' := Induction for expr Sort Prop
with exprs_ind' := Induction for exprs Sort Prop
with exprs1_ind' := Induction for exprs1 Sort Prop.
Combined Scheme expr_mut from expr_ind', exprs_ind', exprs1_ind'.

Lemma level_prec b : level b = prec b. Proof. destruct b; reflexivity. Qed.
Lemma prec_le b : 1 <= prec b <= 7. Proof. destruct b; simpl; lia. Qed.

Fixpoint flush (out : list instr) (pre : list op) : option (list instr) :=
  match pre with
  | [] => Some out
  | OBin b j :: pre' => match emit_bin b j out with Some o => flush o pre' | None => None end
  | OUn u :: pre' => flush (out ++ [IUn u]) pre'
  | _ => None
  end.
Definition high (p : nat) (o : op) : Prop :=
  match o with OBin b _ => p <= prec b | OUn _ => p <= 8 | _ => False end.
Definition base_ok (p : nat) (ops : list op) : Prop :=
  match ops with
  | [] | OParen :: _ | OBracket :: _ => True
  | OBin b _ :: _ => prec b < p
  | OUn _ :: _ => 8 <= p
  | OFun _ _ :: _ => False
  end.
Lemma base_mono p q ops : p <= q -> base_ok p ops -> base_ok q ops.
Proof. intro. destruct ops as [|[b j| | | |] ops]; simpl; auto; lia. Qed.
Lemma high_mono p q pre : p <= q -> Forall (high q) pre -> Forall (high p) pre.
Proof. intros LE F. eapply Forall_impl; [|exact F]. intros [b j|u| | |]; simpl; auto; lia. Qed.
Lemma high9 p pre : 9 <= p -> Forall (high p) pre -> pre = [].
Proof.
  intros LE F. destruct F as [|o pre H F]; [reflexivity|]. exfalso. destruct o as [b j|u| | |]; simpl in H; try lia; try tauto.
  pose proof (prec_le b). lia.
Qed.
Lemma flush_app pre1 : forall out pre2, flush out (pre1 ++ pre2) = match flush out pre1 with Some o => flush o pre2 | None => None end.
Proof.
  induction pre1 as [|o pre1 IH]; intros out pre2; simpl; [reflexivity|]. destruct o as [b j|u| | |]; try reflexivity.
  - destruct (emit_bin b j out); [apply IH|reflexivity].
  - apply IH.
Qed.
Lemma bin_loop_flush b base out' : forall pre out, Forall (high (prec b)) pre -> flush out pre = Some out' -> base_ok (prec b) base ->
  bin_loop b (pre ++ base) out = PopOk base out'.
Proof.
  induction pre as [|o pre IH]; intros out F E B; cbn [app].
  - simpl in E. injection E as ->. destruct base as [|[tb j| | | |] base]; simpl in *; try reflexivity.
    + destruct (Nat.leb_spec (prec b) (prec tb)); [lia|reflexivity].
    + pose proof (prec_le b). lia.
  - inversion F; subst. destruct o as [tb j|u| | |]; simpl in *; try tauto.
    + destruct (Nat.leb_spec (prec b) (prec tb)); [|lia]. destruct (emit_bin tb j out) eqn:EE; [|discriminate]. apply IH; assumption.
    + apply IH; assumption.
Qed.
Definition barrier (o : op) := match o with OParen | OBracket => True | _ => False end.
Lemma comma_loop_flush base bar out' p : barrier bar -> forall pre out, Forall (high p) pre -> flush out pre = Some out' ->
  comma_loop (pre ++ bar :: base) out = PopOk (bar :: base) out'.
Proof.
  intros BB. induction pre as [|o pre IH]; intros out F E; cbn [app].
  - simpl in E. injection E as ->. destruct bar; simpl in BB; try tauto; reflexivity.
  - inversion F; subst. destruct o as [tb j|u| | |]; simpl in *; try tauto.
    + destruct (emit_bin tb j out) eqn:EE; [|discriminate]. apply IH; assumption.
    + apply IH; assumption.
Qed.
Lemma close_loop_flush base (br : bool) out' p : forall pre out, Forall (high p) pre -> flush out pre = Some out' ->
  close_loop br (pre ++ (if br then OBracket else OParen) :: base) out = PopOk base out'.
Proof.
  induction pre as [|o pre IH]; intros out F E; cbn [app].
  - simpl in E. injection E as ->. destruct br; reflexivity.
  - inversion F; subst. destruct o as [tb j|u| | |]; simpl in *; try tauto.
    + destruct (emit_bin tb j out) eqn:EE; [|discriminate]. apply IH; assumption.
    + apply IH; assumption.
Qed.
Lemma end_loop_flush out' p : forall pre out, Forall (high p) pre -> flush out pre = Some out' ->
  end_loop pre out = PopOk [] out'.
Proof.
  induction pre as [|o pre IH]; intros out F E.
  - simpl in E. injection E as ->. reflexivity.
  - inversion F; subst. destruct o as [tb j|u| | |]; simpl in *; try tauto.
    + destruct (emit_bin tb j out) eqn:EE; [|discriminate]. apply IH; assumption.
    + apply IH; assumption.
Qed.

Definition soff (ts : list token) : bool :=
  match ts with [] => false | TOpen :: _ | TUn _ :: _ => false | _ => true end.
Definition isv (t : token) : bool := match t with TVar _ | TClose | TCloseB => true | _ => false end.
Definition lastv (ts : list token) : bool := isv (last ts TComma).
Lemma lastv_snoc ts t : lastv (ts ++ [t]) = isv t.
Proof. unfold lastv. rewrite last_last. reflexivity. Qed.
Lemma last_app' {A} (a b : list A) d : b <> [] -> last (a ++ b) d = last b d.
Proof.
  intro NE. induction a as [|x a IH]; [reflexivity|]. cbn [app]. simpl. destruct (a ++ b) eqn:E; [|exact IH].
  apply app_eq_nil in E as [_ E]. congruence.
Qed.
Lemma soff_app a b : a <> [] -> soff (a ++ b) = soff a.
Proof. destruct a; [congruence|reflexivity]. Qed.

Definition inc_cnt (cnt : list Z) := snd (inc_args [] cnt).
Definition inc_ops (ops : list op) (cnt : list Z) := fst (inc_args ops cnt).
Lemma inc_args_eq ops cnt : inc_args ops cnt = (inc_ops ops cnt, inc_cnt cnt).
Proof. destruct cnt; reflexivity. Qed.
Lemma dec_inc cnt : dec_args (inc_cnt cnt) = cnt.
Proof. destruct cnt as [|c cnt]; [reflexivity|]. unfold inc_cnt. simpl. f_equal. lia. Qed.
Definition nofun (ops : list op) := match ops with OFun _ _ :: _ => False | _ => True end.
Lemma base_nofun p ops : base_ok p ops -> nofun ops.
Proof. destruct ops as [|[]]; simpl; tauto. Qed.
Lemma inc_ops_over t ops cnt : nofun ops -> match t with OFun _ _ => False | _ => True end -> inc_ops (t :: ops) cnt = t :: ops.
Proof.
  intros H T. unfold inc_ops, inc_args. destruct cnt; [reflexivity|]. destruct ops as [|o ops]; cbn [fst].
  - destruct t; simpl in *; try tauto; reflexivity.
  - destruct o; simpl in H; try tauto; reflexivity.
Qed.
Lemma inc_base p ops cnt : base_ok p ops -> base_ok p (inc_ops ops cnt).
Proof.
  unfold inc_ops, inc_args. destruct cnt; [auto|]. destruct ops as [|a [|b ops]]; cbn [fst]; auto.
  destruct a; simpl; tauto.
Qed.

Definition ops_after (ts : list token) (ops : list op) (cnt : list Z) := if soff ts then inc_ops ops cnt else ops.
Lemma ops_after_base p ts ops cnt : base_ok p ops -> base_ok p (ops_after ts ops cnt).
Proof. unfold ops_after. destruct (soff ts); [apply inc_base|auto]. Qed.
Lemma ops_after_over ts t ops cnt : nofun ops -> match t with OFun _ _ => False | _ => True end -> ops_after ts (t :: ops) cnt = t :: ops.
Proof. intros. unfold ops_after. destruct (soff ts); [apply inc_ops_over; assumption|reflexivity]. Qed.

Definition mkst out ops cnt last := {| p_out := out; p_ops := ops; p_cnt := cnt; p_last := last |}.

Definition Pe (p : nat) (ts : list token) (e : ast) : Prop :=
  ts <> [] /\
  forall out ops cnt rest, base_ok p ops ->
  exists out' pre, ptoks (ts ++ rest) (mkst out ops cnt false) =
      ptoks rest (mkst out' (pre ++ ops_after ts ops cnt) (inc_cnt cnt) (lastv ts)) /\
    flush out' pre = Some (out ++ comp e) /\ Forall (high p) pre.
Definition Pargs (arr : bool) (ts : list token) (es : list ast) : Prop :=
  forall out bar id n ops c cs rest, barrier bar -> (if arr then id = id_array_build else id <> id_array_build) ->
  exists out' pre l, ptoks (ts ++ rest) (mkst out (bar :: OFun id n :: ops) (c :: cs) false) =
      ptoks rest (mkst out' (pre ++ bar :: OFun id (if arr then n + length es else n) :: ops) ((c + Z.of_nat (length es))%Z :: cs) l) /\
    flush out' pre = Some (out ++ flat_map comp es) /\ Forall (high 1) pre.

Lemma operand_ok t i l e : (forall out ops cnt, ptok t (mkst out ops cnt false) = push_operand i l (mkst out ops cnt false)) ->
  soff [t] = true -> isv t = l -> comp e = [i] -> Pe 9 [t] e.
Proof.
  intros HT S V C. split; [discriminate|]. intros out ops cnt rest B. exists (out ++ [i]), [].
  cbn [app ptoks]. rewrite HT. unfold push_operand. cbn [p_ops p_cnt mkst p_out]. rewrite inc_args_eq.
  split; [|split; [rewrite C; reflexivity|constructor]]. unfold ops_after. rewrite S. unfold lastv. cbn [last]. rewrite V. reflexivity.
Qed.

Lemma patch_jmp (out mid : list instr) v : 
  patch (out ++ [IJmp v 0] ++ mid) (Some (length out)) = Some (out ++ [IJmp v (S (length mid))] ++ mid).
Proof.
  unfold patch. rewrite nth_error_app2 by lia. rewrite Nat.sub_diag. cbn [app nth_error]. f_equal.
  assert (U : forall A (a b : list A) x y, upd (length a) y (a ++ x :: b) = a ++ y :: b).
  { clear. induction a as [|z a IH]; intros; simpl; [reflexivity|]. rewrite IH. reflexivity. }
  rewrite U. do 3 f_equal. rewrite app_length. simpl. lia.
Qed.

Lemma parse_mut :
  (forall p ts e, expr p ts e -> Pe p ts e) /\
  (forall arr ts es, exprs arr ts es -> Pargs arr ts es) /\
  (forall arr ts es, exprs1 arr ts es -> Pargs arr ts es).
Proof.
  apply expr_mut; intros.
  - apply (operand_ok (TVar v) (IVar v) true); reflexivity.
  - apply (operand_ok (TNum n) (IConst (var_of_number n)) false); reflexivity.
  - apply (operand_ok (TStr s) (IConst (VStr s)) false); reflexivity.
  - (* parentheses *)
    destruct H as [NE H]. split; [discriminate|]. intros out ops cnt rest B. cbn [app ptoks ptok]. cbn [p_out p_ops p_cnt mkst].
    rewrite <- app_assoc. destruct (H out (OParen :: ops) cnt ([TClose] ++ rest) I) as (out' & pre & E & F & HH).
    exists (out ++ comp e), []. fold (mkst out (OParen :: ops) cnt false). rewrite E. clear E.
    rewrite ops_after_over by (eauto using base_nofun || exact I). cbn [app ptoks ptok p_out p_ops p_cnt mkst].
    rewrite (close_loop_flush ops false _ 1 pre out' HH F). unfold finish_call.
    split; [|split; [reflexivity|constructor]].
    unfold ops_after. cbn [soff]. replace (lastv (TOpen :: ts ++ [TClose])) with true by (symmetry; exact (lastv_snoc (TOpen :: ts) TClose)).
    destruct ops as [|[| | | |] ops]; simpl in B; try tauto; reflexivity.
  - (* call *)
    split; [discriminate|]. intros out ops cnt rest B. cbn [app ptoks ptok]. cbn [p_out p_ops p_cnt mkst]. rewrite inc_args_eq.
    cbn [p_out p_ops p_cnt]. rewrite <- app_assoc.
    destruct (H out OParen id (length es) (inc_ops ops cnt) 0%Z (inc_cnt cnt) ([TClose] ++ rest) I) as (out' & pre & l & E & F & HH); [apply f|].
    exists (out ++ comp (EFun id es)), []. unfold mkst in E at 1. rewrite E. clear E. cbn [app ptoks ptok p_out p_ops p_cnt mkst].
    rewrite (close_loop_flush _ false _ 1 pre out' HH F). unfold finish_call. destruct f as [F1 F2].
    rewrite Z.add_0_l, Z.eqb_refl. cbn [negb]. apply N.eqb_neq in F1, F2. rewrite F1, F2.
    split; [|split; [|constructor]].
    + unfold ops_after. cbn [soff]. replace (lastv _) with true by (symmetry; exact (lastv_snoc (TFun id (length es) :: TOpen :: ts) TClose)). cbn [comp app]. rewrite app_assoc. reflexivity.
    + reflexivity.
  - (* array *)
    split; [discriminate|]. intros out ops cnt rest B. cbn [app ptoks ptok]. cbn [p_out p_ops p_cnt p_last mkst]. rewrite inc_args_eq.
    rewrite <- app_assoc.
    destruct (H out OBracket id_array_build 0 (inc_ops ops cnt) 0%Z (inc_cnt cnt) ([TCloseB] ++ rest) I eq_refl) as (out' & pre & l & E & F & HH).
    exists (out ++ comp (EArr es)), []. unfold mkst in E at 1. rewrite E. clear E. cbn [app ptoks ptok p_out p_ops p_cnt mkst].
    rewrite (close_loop_flush _ true _ 1 pre out' HH F). unfold finish_call.
    rewrite Z.add_0_l. cbn [plus]. rewrite Z.eqb_refl. cbn [negb].
    split; [|split; [|constructor]].
    + unfold ops_after. cbn [soff]. replace (lastv _) with true by (symmetry; exact (lastv_snoc (TOpenB :: ts) TCloseB)). cbn [comp app]. rewrite app_assoc. reflexivity.
    + reflexivity.
  - (* index *)
    destruct H as [NE H], H0 as [NE0 H0]. split; [destruct ts; discriminate|]. intros out ops cnt rest B.
    rewrite <- app_assoc. cbn [app].
    destruct (H out ops cnt (TOpenB :: (ti ++ [TCloseB]) ++ rest) B) as (o1 & pre1 & E1 & F1 & HH1).
    apply high9 in HH1; [|lia]. subst pre1. cbn [app flush] in *. injection F1 as ->. rewrite E1. clear E1.
    cbn [ptoks ptok p_out p_ops p_cnt p_last mkst].
    assert (LV : lastv ts = true).
    { destruct i0 as (q & t & -> & T). rewrite lastv_snoc. destruct t; simpl in *; tauto. }
    rewrite LV. rewrite <- app_assoc.
    destruct (H0 (out ++ comp e) (OBracket :: OFun id_array_access 2 :: ops_after ts ops cnt) (1%Z :: inc_cnt cnt) ([TCloseB] ++ rest) I) as (o2 & pre2 & E2 & F2 & HH2).
    unfold mkst in E2 at 1. rewrite E2. clear E2.
    assert (OA : ops_after ti (OBracket :: OFun id_array_access 2 :: ops_after ts ops cnt) (1%Z :: inc_cnt cnt) =
                 OBracket :: OFun id_array_access 2 :: ops_after ts ops cnt).
    { unfold ops_after at 1. destruct (soff ti); reflexivity. }
    rewrite OA. cbn [app ptoks ptok p_out p_ops p_cnt p_last mkst].
    rewrite (close_loop_flush _ true _ 1 pre2 o2 HH2 F2). unfold finish_call, inc_cnt. cbn [inc_args snd].
    change (negb (Z.eqb (1 + 1) (Z.of_nat 2))) with false. cbv iota.
    exists (out ++ comp (EIdx e i)), []. split; [|split; [reflexivity|constructor]].
    unfold ops_after. rewrite soff_app by exact NE. fold (ops_after ts ops cnt).
    replace (lastv (ts ++ TOpenB :: ti ++ [TCloseB])) with true.
    2: { symmetry. replace (ts ++ TOpenB :: ti ++ [TCloseB]) with ((ts ++ TOpenB :: ti) ++ [TCloseB]) by (rewrite <- app_assoc; reflexivity). apply lastv_snoc. }
    cbn [comp]. rewrite !app_assoc. reflexivity.
  - (* unary *)
    destruct H as [NE H]. split; [discriminate|]. intros out ops cnt rest B. cbn [app ptoks ptok]. cbn [p_out p_ops p_cnt mkst].
    destruct (H out (OUn u :: ops) cnt rest (le_n 8)) as (out' & pre & E & F & HH). unfold mkst in E at 1. rewrite E.
    rewrite ops_after_over by (eauto using base_nofun || exact I).
    exists out', (pre ++ [OUn u]). split; [|split].
    + rewrite <- app_assoc. cbn [app]. unfold ops_after. cbn [soff].
      replace (lastv (TUn u :: ts)) with (lastv ts); [reflexivity|]. unfold lastv. f_equal. destruct ts; [congruence|reflexivity].
    + rewrite flush_app, F. cbn [flush comp]. rewrite <- app_assoc. reflexivity.
    + apply Forall_app. split; [exact HH|]. repeat constructor.
  - (* binary *)
    rewrite level_prec in *. destruct H as [NEl Hl], H0 as [NEr Hr]. split; [destruct tl; discriminate|]. intros out ops cnt rest B.
    rewrite <- app_assoc. cbn [app].
    destruct (Hl out ops cnt (TBin b :: tr ++ rest) B) as (o1 & pre1 & E1 & F1 & HH1). rewrite E1. clear E1.
    cbn [ptoks ptok p_out p_ops p_cnt p_last mkst].
    rewrite (bin_loop_flush b (ops_after tl ops cnt) _ pre1 o1 HH1 F1 (ops_after_base _ _ _ _ B)). rewrite dec_inc.
    set (out2 := out ++ comp l) in *.
    set (jm := match b with BAnd => (out2 ++ [IJmp false 0], Some (length out2)) | BOr => (out2 ++ [IJmp true 0], Some (length out2)) | _ => (out2, None) end).
    destruct jm as [out3 j] eqn:EJ.
    assert (B2 : base_ok (prec b + 1) (OBin b j :: ops_after tl ops cnt)) by (simpl; lia).
    destruct (Hr out3 (OBin b j :: ops_after tl ops cnt) cnt rest B2) as (o4 & pre4 & E4 & F4 & HH4).
    unfold mkst in E4 at 1. rewrite E4. clear E4.
    rewrite ops_after_over by (try exact I; eapply base_nofun; eapply ops_after_base; exact B).
    exists o4, (pre4 ++ [OBin b j]). split; [|split].
    + rewrite <- app_assoc. cbn [app]. f_equal. unfold ops_after. rewrite soff_app by exact NEl. 
      unfold lastv. rewrite last_app' by discriminate. destruct tr; [congruence|]. reflexivity.
    + rewrite flush_app, F4. cbn [flush comp]. unfold emit_bin.
      assert (PJ : patch (out3 ++ comp r) j = Some (out2 ++ jmp_code b (length (comp r)) ++ comp r)).
      { destruct b; injection EJ as <- <-; cbn [jmp_code]; try reflexivity;
          rewrite <- app_assoc; apply patch_jmp. }
      rewrite PJ. unfold out2. rewrite <- !app_assoc. reflexivity.
    + apply Forall_app. split; [eapply high_mono; [|exact HH4]; lia|]. repeat constructor.
  - (* weakening *)
    destruct H as [NE H]. split; [exact NE|]. intros out ops cnt rest B.
    destruct (H out ops cnt rest (base_mono _ _ _ l B)) as (out' & pre & E & F & HH). exists out', pre. split; [exact E|]. split; [exact F|].
    eapply high_mono; eassumption.
  - (* no arguments *)
    intros out bar id n ops c cs rest BB ID. exists out, [], false. cbn [app length flat_map flush]. rewrite app_nil_r.
    split; [|split; [reflexivity|constructor]]. f_equal. unfold mkst. f_equal; [|f_equal; lia].
    destruct arr; repeat f_equal; lia.
  - exact H.
  - (* last argument *)
    destruct H as [NE H]. intros out bar id n ops c cs rest BB ID.
    destruct (H out (bar :: OFun id n :: ops) (c :: cs) rest) as (out' & pre & E & F & HH); [destruct bar; simpl in *; tauto|].
    exists out', pre, (lastv ts). split; [|split; [cbn [flat_map]; rewrite app_nil_r; exact F|exact HH]].
    rewrite E. f_equal. unfold mkst. f_equal. f_equal. unfold ops_after. destruct arr.
    + destruct (s eq_refl) as (t & q & -> & T). subst id. replace (soff (t :: q)) with true by (destruct t; simpl in *; tauto).
      unfold inc_ops. cbn [inc_args fst bump]. cbn [length]. rewrite Nat.add_1_r. reflexivity.
    + destruct (soff ts); [|reflexivity]. unfold inc_ops. cbn [inc_args fst bump]. apply N.eqb_neq in ID. rewrite ID. reflexivity.
  - (* argument, comma, more *)
    destruct H as [NE H]. intros out bar id n ops c cs rest BB ID. rewrite <- app_assoc. cbn [app].
    destruct (H out (bar :: OFun id n :: ops) (c :: cs) (TComma :: ts' ++ rest)) as (out' & pre & E & F & HH); [destruct bar; simpl in *; tauto|].
    rewrite E. clear E.
    set (n' := if arr then n + 1 else n).
    assert (OA : ops_after ts (bar :: OFun id n :: ops) (c :: cs) = bar :: OFun id n' :: ops).
    { unfold ops_after, n'. destruct arr.
      - destruct (s eq_refl) as (t & q & -> & T). subst id. replace (soff (t :: q)) with true by (destruct t; simpl in *; tauto).
        unfold inc_ops. cbn [inc_args fst bump]. rewrite Nat.add_1_r. reflexivity.
      - destruct (soff ts); [|reflexivity]. unfold inc_ops. cbn [inc_args fst bump]. apply N.eqb_neq in ID. rewrite ID. reflexivity. }
    rewrite OA. cbn [ptoks ptok p_out p_ops p_cnt p_last mkst].
    rewrite (comma_loop_flush _ bar _ 1 BB pre out' HH F). unfold inc_cnt. cbn [inc_args snd].
    destruct (H0 (out ++ comp e) bar id n' ops (c + 1)%Z cs rest BB ID) as (o2 & pre2 & l2 & E2 & F2 & HH2).
    unfold mkst in E2 at 1. rewrite E2. exists o2, pre2, l2. split; [|split; [cbn [flat_map]; rewrite app_assoc; exact F2|exact HH2]].
    f_equal. unfold mkst. f_equal; [f_equal; f_equal; f_equal|f_equal; cbn [length]; lia].
    unfold n'. destruct arr; f_equal; cbn [length]; lia.
Qed.

Lemma parse_compiles p ts e : expr p ts e -> parse ts = Parsed (comp e).
Proof.
  intro H. apply parse_mut in H as [NE H]. destruct (H [] [] [] [] I) as (out' & pre & E & F & HH). unfold parse.
  rewrite app_nil_r in E. fold (mkst [] [] [] false) in E. unfold pinit. fold (mkst [] [] [] false). rewrite E. cbn [ptoks mkst p_ops p_out].
  assert (ops_after ts [] [] = []) as -> by (unfold ops_after; destruct (soff ts); reflexivity). rewrite app_nil_r.
  rewrite (end_loop_flush _ _ _ _ HH F). reflexivity.
Qed.

(** *** The machine *)
Section Ind.
  Variable P : ast -> Prop.
  Hypothesis HV : forall v, P (EVar v).
  Hypothesis HC : forall c, P (EConst c).
  Hypothesis HU : forall u e, P e -> P (EUn u e).
  Hypothesis HB : forall b l r, P l -> P r -> P (EBin b l r).
  Hypothesis HF : forall id es, Forall P es -> P (EFun id es).
  Hypothesis HA : forall es, Forall P es -> P (EArr es).
  Hypothesis HI : forall e i, P e -> P i -> P (EIdx e i).
  Fixpoint ast_ind' (e : ast) : P e :=
    let go := fix go es : Forall P es := match es with [] => Forall_nil P | e :: es' => Forall_cons e (ast_ind' e) (go es') end in
    match e with
    | EVar v => HV v
    | EConst c => HC c
    | EUn u e => HU u e (ast_ind' e)
    | EBin b l r => HB b l r (ast_ind' l) (ast_ind' r)
    | EFun id es => HF id es (go es)
    | EArr es => HA es (go es)
    | EIdx e i => HI e i (ast_ind' e) (ast_ind' i)
    end.
End Ind.

Section M.
  Variable L : rustlib.
  Variable strict : bool.
  Variable fns : N -> option (list var -> var).
  Variable ctx : vctx.
  Notation exec := (exec L strict fns ctx).
  Notation ee := (eval_expression L strict fns ctx).
  Notation conv := (converse L strict fns ctx).

  Ltac step_cases IH :=
    match goal with
    | |- context [match pop ?b ?s with _ => _ end] => destruct (pop b s) as [[? ?]|]
    | |- context [match popn ?b ?n ?a ?s with _ => _ end] => destruct (popn b n a s) as [[? ?]|]
    | |- context [match un_sem ?a ?b ?c with _ => _ end] => destruct (un_sem a b c)
    | |- context [match fns ?i with _ => _ end] => destruct (fns i)
    | |- context [if Bool.eqb ?a ?b then _ else _] => destruct (Bool.eqb a b)
    | |- context [if strict then _ else _] => destruct strict
    | |- context [match ?l with [] => _ | _ :: _ => _ end] => destruct l
    end.
  Lemma exec_fuel code : forall f pos st, S (length code - pos) <= f -> exec f code pos st = ee code pos st.
  Proof.
    assert (G : forall f f' pos st, S (length code - pos) <= f -> S (length code - pos) <= f' -> exec f code pos st = exec f' code pos st).
    { induction f as [|f IH]; intros f' pos st LE LE'; [lia|]. destruct f' as [|f']; [lia|]. cbn [Expr.exec].
      destruct (nth_error code pos) as [i|] eqn:EN; [|reflexivity].
      assert (pos < length code) by (apply nth_error_Some; congruence).
      destruct i; repeat first [reflexivity | apply IH; lia | step_cases IH]. }
    intros f pos st LE. apply G; [exact LE|lia].
  Qed.

  Lemma ee_step code pos st : ee code pos st =
    match nth_error code pos with
    | None => match pop strict st with
                  | Some (v, []) => EDone v
                  | Some (v, _) => if strict then EStack else EDone v
                  | None => EStack
                  end
    | Some i =>
        match i with
        | IVar v => ee code (pos + 1) (match variable ctx v with Some x => x | None => vdefault end :: st)
        | IConst c => ee code (pos + 1) (c :: st)
        | IUn u => match pop strict st with
                   | Some (v, st') => match un_sem L u v with Some x => ee code (pos + 1) (x :: st') | None => EPanic end
                   | None => EStack
                   end
        | IBin b => match popn strict 2 [] st with
                    | Some ([l; r], st') => ee code (pos + 1) (bin_sem L b l r :: st')
                    | _ => EStack
                    end
        | IFun id n => match popn strict n [] st with
            | Some (args, st') => match fns id with Some g => ee code (pos + 1) (g args :: st') | None => ECall (id_external - id)%N args (pos + 1) st' end
            | None => EStack end
        | IJmp val k =>
            match st with
            | [] => if strict then EStack
                        else if Bool.eqb false val then ee code (pos + 1 + k) st else ee code (pos + 1) st
            | v :: _ => if Bool.eqb (to_bool v) val then ee code (pos + 1 + k) st else ee code (pos + 1) st
            end
        | IIdx => match popn strict 2 [] st with
                      | Some ([a; i], st') => ee code (pos + 1) (array_get a i :: st')
                      | _ => EStack
                      end
        | IArr n => match popn strict n [] st with
                        | Some (args, st') => ee code (pos + 1) (VArr args :: st')
                        | None => EStack
                        end
        end
    end.
  Proof.
    pose proof (exec_fuel code) as EF. unfold eval_expression at 1. cbn [Expr.exec]. destruct (nth_error code pos) as [i|] eqn:EN; [|reflexivity].
    assert (pos < length code) by (apply nth_error_Some; congruence).
    destruct i; repeat first [reflexivity | apply EF; lia | step_cases I].
  Qed.
  Lemma exec_no_fuel code : forall n pos st, length code - pos <= n -> ee code pos st <> EFuel.
  Proof.
    induction n as [|n IH]; intros pos st LE; rewrite ee_step; destruct (nth_error code pos) as [i|] eqn:EN;
      try (assert (pos < length code) by (apply nth_error_Some; congruence); try lia);
      try destruct i; repeat first [discriminate | apply IH; lia | step_cases I].
  Qed.

  Lemma conv_unfold ans code pos st : conv ans code pos st =
    match ee code pos st with
    | EDone v => ([], OVal v)
    | EPanic | EFuel => ([], OPanic)
    | EStack => ([], OStack)
    | ECall id args pos' st' =>
        match ans with
        | [] => ([(id, args)], OWait)
        | a :: ans' => let '(cs, o) := conv ans' code pos' (a :: st') in ((id, args) :: cs, o)
        end
    end.
  Proof. destruct ans; reflexivity. Qed.
  Lemma conv_same ans code pos st pos' st' : ee code pos st = ee code pos' st' -> conv ans code pos st = conv ans code pos' st'.
  Proof. intro H. rewrite (conv_unfold ans code pos st), (conv_unfold ans code pos' st'), H. reflexivity. Qed.

  Lemma nth_mid {A} (pre : list A) x post : nth_error (pre ++ x :: post) (length pre) = Some x.
  Proof. rewrite nth_error_app2 by lia. rewrite Nat.sub_diag. reflexivity. Qed.

  (** Run one tree from the middle of some code. *)
  Definition after (m : step) (code : list instr) (pos : nat) (s : list var) : list call * outcome :=
    match m with
    | (cs, OVal v, rest) => let '(cs', o) := conv rest code pos (v :: s) in (cs ++ cs', o)
    | (cs, o, _) => (cs, o)
    end.
  Definition runs (e : ast) : Prop := forall pre post s ans,
    conv ans (pre ++ comp e ++ post) (length pre) s =
    after (eval L fns ctx e ans) (pre ++ comp e ++ post) (length pre + length (comp e)) s.

  Lemma after_andthen m k code pos s :
    after (andthen m k) code pos s =
    match m with
    | (cs, OVal v, rest) => let '(cs', o) := after (k v rest) code pos s in (cs ++ cs', o)
    | (cs, o, _) => (cs, o)
    end.
  Proof.
    destruct m as [[cs [v| | |]] rest]; try reflexivity. cbn [andthen]. destruct (k v rest) as [[cs' [v'| | |]] rest']; cbn [after]; try reflexivity.
    destruct (conv rest' code pos (v' :: s)). rewrite app_assoc. reflexivity.
  Qed.
  Lemma after_ret v a code pos s : after (ret v a) code pos s = conv a code pos (v :: s).
  Proof. unfold ret, after. destruct (conv a code pos (v :: s)). reflexivity. Qed.

  (** a [runs] hypothesis applied in context *)
  Lemma runs_at e code pre post s ans : runs e -> code = pre ++ comp e ++ post ->
    conv ans code (length pre) s = after (eval L fns ctx e ans) code (length pre + length (comp e)) s.
  Proof. intros H ->. apply H. Qed.

  Lemma popn_rev args s : forall acc, popn strict (length args) acc (rev args ++ s) = Some (args ++ acc, s).
  Proof.
    induction args as [|a args IH] using rev_ind; intro acc; [reflexivity|]. rewrite app_length, Nat.add_1_r, rev_app_distr. cbn [popn app pop rev].
    rewrite IH. rewrite <- app_assoc. reflexivity.
  Qed.

  (** arguments: the values pile up on the stack *)
  Definition goG (K : list var -> list var -> step) := fix go (es : list ast) (acc a : list var) : step :=
    match es with
    | [] => K acc a
    | e :: es' => andthen (eval L fns ctx e a) (fun v a' => go es' (acc ++ [v]) a')
    end.
  Lemma run_args K code endpos s post : forall es, Forall runs es -> forall pre ans acc,
    code = pre ++ flat_map comp es ++ post ->
    (forall vs a, length vs = length es ->
       conv a code (length pre + length (flat_map comp es)) (rev (acc ++ vs) ++ s) = after (K (acc ++ vs) a) code endpos s) ->
    conv ans code (length pre) (rev acc ++ s) = after (goG K es acc ans) code endpos s.
  Proof.
    induction 1 as [|e es R F IH]; intros pre ans acc EC H.
    - cbn [goG flat_map length] in *. specialize (H [] ans eq_refl). rewrite Nat.add_0_r, app_nil_r in H. exact H.
    - cbn [flat_map] in *. rewrite <- app_assoc in EC. rewrite (runs_at e code pre _ _ _ R EC). cbn [goG]. rewrite after_andthen.
      destruct (eval L fns ctx e ans) as [[cs [v| | |]] rest]; cbn [after]; try reflexivity.
      assert (EC' : code = (pre ++ comp e) ++ flat_map comp es ++ post) by (rewrite <- app_assoc; exact EC).
      specialize (IH (pre ++ comp e) rest (acc ++ [v]) EC'). rewrite app_length in IH.
      rewrite rev_app_distr in IH. cbn [rev app] in IH.
      fold (goG K). rewrite IH; [reflexivity|]. intros vs a LV. specialize (H (v :: vs) a). rewrite app_length in H. rewrite Nat.add_assoc in H.
      rewrite <- app_assoc. cbn [app]. apply H. simpl. lia.
  Qed.

  Lemma comp_runs : forall e, runs e.
  Proof.
    induction e as [v|c|u e IH|b l r IHl IHr|id es IH|es IH|e i IHe IHi] using ast_ind'; intros pre post s ans.
    - cbn [eval comp app length]. rewrite after_ret. apply conv_same. rewrite ee_step, nth_mid. reflexivity.
    - cbn [eval comp app length]. rewrite after_ret. apply conv_same. rewrite ee_step, nth_mid. reflexivity.
    - cbn [eval comp]. set (code := pre ++ (comp e ++ [IUn u]) ++ post).
      assert (EC : code = pre ++ comp e ++ ([IUn u] ++ post)) by (unfold code; rewrite <- !app_assoc; reflexivity).
      rewrite (runs_at e code pre _ _ _ IH EC). rewrite after_andthen. destruct (eval L fns ctx e ans) as [[cs [v| | |]] rest]; try reflexivity.
      cbn [after]. rewrite app_length. cbn [length].
      assert (ES : ee code (length pre + length (comp e)) (v :: s) =
                   match un_sem L u v with Some x => ee code (length pre + (length (comp e) + 1)) (x :: s) | None => EPanic end).
      { rewrite ee_step. replace (nth_error code (length pre + length (comp e))) with (Some (IUn u)).
        - cbn [pop]. rewrite Nat.add_assoc. reflexivity.
        - rewrite EC, app_assoc, <- app_length. symmetry. apply nth_mid. }
      destruct (un_sem L u v) as [x|] eqn:EU.
      + rewrite after_ret. rewrite (conv_same _ _ _ _ _ _ ES). reflexivity.
      + rewrite conv_unfold, ES. reflexivity.
    - cbn [eval comp]. set (code := pre ++ (comp l ++ jmp_code b (length (comp r)) ++ comp r ++ [IBin b]) ++ post).
      assert (EC : code = pre ++ comp l ++ (jmp_code b (length (comp r)) ++ comp r ++ [IBin b] ++ post)) by (unfold code; rewrite <- !app_assoc; reflexivity).
      rewrite (runs_at l code pre _ _ _ IHl EC). rewrite after_andthen. destruct (eval L fns ctx l ans) as [[cs [vl| | |]] rest]; try reflexivity.
      cbn [after]. set (endp := length pre + length (comp l ++ jmp_code b (length (comp r)) ++ comp r ++ [IBin b])).
      (* the right operand, when it is evaluated *)
      assert (RR : forall a, conv a code (length (pre ++ comp l ++ jmp_code b (length (comp r)))) (vl :: s) =
                   after (andthen (eval L fns ctx r a) (fun vr a' => ret (bin_sem L b vl vr) a')) code endp s).
      { intro a. assert (EC' : code = (pre ++ comp l ++ jmp_code b (length (comp r))) ++ comp r ++ ([IBin b] ++ post)) by (rewrite <- !app_assoc; exact EC).
        rewrite (runs_at r code _ _ _ _ IHr EC'). rewrite after_andthen. destruct (eval L fns ctx r a) as [[cs' [vr| | |]] rest']; try reflexivity.
        cbn [after]. rewrite after_ret.
        rewrite (conv_same rest' code _ (vr :: vl :: s) endp (bin_sem L b vl vr :: s)); [reflexivity|].
        rewrite ee_step. rewrite <- app_length.
        assert (nth_error code (length ((pre ++ comp l ++ jmp_code b (length (comp r))) ++ comp r)) = Some (IBin b)) as ->.
        { rewrite EC', app_assoc. apply nth_mid. }
        cbn [popn pop]. f_equal. unfold endp. rewrite !app_length. cbn [length]. lia. }
      assert (NJ : length (jmp_code b (length (comp r))) = 0 -> conv rest code (length pre + length (comp l)) (vl :: s) =
                   after (andthen (eval L fns ctx r rest) (fun vr a' => ret (bin_sem L b vl vr) a')) code endp s).
      { intro Z. rewrite <- RR. rewrite !app_length, Z. f_equal. lia. }
      assert (J : forall val k, jmp_code b (length (comp r)) = [IJmp val k] -> k = S (length (comp r)) ->
         conv rest code (length pre + length (comp l)) (vl :: s) =
         if Bool.eqb (to_bool vl) val then conv rest code endp (vl :: s)
         else after (andthen (eval L fns ctx r rest) (fun vr a' => ret (bin_sem L b vl vr) a')) code endp s).
      { intros val k EJ EK. 
        assert (ES : ee code (length pre + length (comp l)) (vl :: s) =
          if Bool.eqb (to_bool vl) val then ee code endp (vl :: s) else ee code (length (pre ++ comp l ++ jmp_code b (length (comp r)))) (vl :: s)).
        { rewrite ee_step. rewrite <- app_length.
          assert (nth_error code (length (pre ++ comp l)) = Some (IJmp val k)) as ->.
          { rewrite EC, EJ, app_assoc. apply nth_mid. }
          unfold endp. rewrite EJ, EK. destruct (Bool.eqb (to_bool vl) val); f_equal; rewrite !app_length; cbn [length]; lia. }
        destruct (Bool.eqb (to_bool vl) val); rewrite (conv_same _ _ _ _ _ _ ES); [reflexivity|apply RR]. }
      destruct b; try (rewrite NJ by reflexivity; reflexivity).
      + rewrite (J false _ eq_refl eq_refl). destruct (to_bool vl); cbn [Bool.eqb]; [reflexivity|]. rewrite after_ret. reflexivity.
      + rewrite (J true _ eq_refl eq_refl). destruct (to_bool vl); cbn [Bool.eqb]; [|reflexivity]. rewrite after_ret. reflexivity.
    - cbn [comp]. set (code := pre ++ (flat_map comp es ++ [IFun id (length es)]) ++ post).
      assert (EC : code = pre ++ flat_map comp es ++ ([IFun id (length es)] ++ post)) by (unfold code; rewrite <- !app_assoc; reflexivity).
      set (K := fun acc a : list var => match fns id with
                   | Some g => ret (g acc) a
                   | None => match a with
                             | [] => ([((id_external - id)%N, acc)], OWait, [])
                             | v :: a' => ([((id_external - id)%N, acc)], OVal v, a')
                             end
                   end).
      change (eval L fns ctx (EFun id es) ans) with (goG K es [] ans).
      apply (run_args K code (length pre + length (flat_map comp es ++ [IFun id (length es)])) s ([IFun id (length es)] ++ post) es IH pre ans [] EC).
      intros vs a LV. cbn [app].
      assert (ES : ee code (length pre + length (flat_map comp es)) (rev vs ++ s) =
        match fns id with Some g => ee code (length pre + length (flat_map comp es ++ [IFun id (length es)])) (g vs :: s)
        | None => ECall (id_external - id)%N vs (length pre + length (flat_map comp es ++ [IFun id (length es)])) s end).
      { rewrite ee_step. rewrite <- app_length.
        assert (nth_error code (length (pre ++ flat_map comp es)) = Some (IFun id (length es))) as ->.
        { rewrite EC, app_assoc. apply nth_mid. }
        rewrite <- LV, popn_rev, app_nil_r. rewrite LV. replace (length (pre ++ flat_map comp es) + 1) with (length pre + length (flat_map comp es ++ [IFun id (length es)])).
        - reflexivity.
        - rewrite !app_length. cbn [length]. lia. }
      unfold K. destruct (fns id) as [g|].
      + rewrite after_ret. apply conv_same, ES.
      + rewrite conv_unfold, ES. destruct a as [|v a']; [reflexivity|]. cbn [after]. destruct (conv a' code _ _). reflexivity.
    - cbn [comp]. set (code := pre ++ (flat_map comp es ++ [IArr (length es)]) ++ post).
      assert (EC : code = pre ++ flat_map comp es ++ ([IArr (length es)] ++ post)) by (unfold code; rewrite <- !app_assoc; reflexivity).
      set (K := fun acc a : list var => ret (VArr acc) a).
      change (eval L fns ctx (EArr es) ans) with (goG K es [] ans).
      apply (run_args K code (length pre + length (flat_map comp es ++ [IArr (length es)])) s ([IArr (length es)] ++ post) es IH pre ans [] EC).
      intros vs a LV. cbn [app]. unfold K. rewrite after_ret. apply conv_same.
      rewrite ee_step. rewrite <- app_length.
      assert (nth_error code (length (pre ++ flat_map comp es)) = Some (IArr (length es))) as ->.
      { rewrite EC, app_assoc. apply nth_mid. }
      rewrite <- LV, popn_rev, app_nil_r. rewrite LV. f_equal. rewrite !app_length. cbn [length]. lia.
    - cbn [eval comp]. set (code := pre ++ (comp e ++ comp i ++ [IIdx]) ++ post).
      assert (EC : code = pre ++ comp e ++ (comp i ++ [IIdx] ++ post)) by (unfold code; rewrite <- !app_assoc; reflexivity).
      rewrite (runs_at e code pre _ _ _ IHe EC). rewrite after_andthen. destruct (eval L fns ctx e ans) as [[cs [ve| | |]] rest]; try reflexivity.
      cbn [after]. rewrite <- app_length.
      assert (EC' : code = (pre ++ comp e) ++ comp i ++ ([IIdx] ++ post)) by (rewrite <- app_assoc; exact EC).
      rewrite (runs_at i code _ _ _ _ IHi EC'). rewrite after_andthen. destruct (eval L fns ctx i rest) as [[cs' [vi| | |]] rest']; try reflexivity.
      cbn [after]. rewrite after_ret.
      rewrite (conv_same rest' code _ (vi :: ve :: s) (length pre + length (comp e ++ comp i ++ [IIdx])) (array_get ve vi :: s)); [reflexivity|].
      rewrite ee_step. rewrite <- app_length.
      assert (nth_error code (length ((pre ++ comp e) ++ comp i)) = Some IIdx) as ->.
      { rewrite EC', app_assoc. apply nth_mid. }
      cbn [popn pop]. f_equal. rewrite !app_length. cbn [length]. lia.
  Qed.

  Lemma conv_comp e ans : conv ans (comp e) 0 [] = let '(cs, o, _) := eval L fns ctx e ans in (cs, o).
  Proof.
    pose proof (comp_runs e [] [] [] ans) as H. cbn [app length plus] in H. rewrite app_nil_r in H. rewrite H. unfold after.
    destruct (eval L fns ctx e ans) as [[cs [v| | |]] rest]; try reflexivity. rewrite conv_unfold, ee_step.
    replace (nth_error (comp e) (length (comp e))) with (@None instr) by (symmetry; apply nth_error_None; lia).
    cbn [pop fst]. rewrite app_nil_r. reflexivity.
  Qed.
End M.

Section H.
  Variable L : rustlib.
  Variable fns : N -> option (list var -> var).
  Variable ctx : vctx.
  Variable h : N -> list var -> var.
  Definition res (r : eres) : option var := match r with EDone v => Some v | _ => None end.
  Lemma ask_same n code pos st pos' st' :
    eval_expression L false fns ctx code pos st = eval_expression L false fns ctx code pos' st' ->
    ask_host L fns ctx h (S n) code pos st = ask_host L fns ctx h (S n) code pos' st'.
  Proof. intro E. cbn [ask_host]. rewrite E. reflexivity. Qed.
  Lemma pop_false st : exists v st', pop false st = Some (v, st').
  Proof. destruct st; simpl; eauto. Qed.
  Lemma popn_false n : forall acc st, exists l st', popn false n acc st = Some (l, st') /\ length l = n + length acc.
  Proof.
    induction n as [|n IH]; intros acc st; simpl; [eauto|]. destruct (pop_false st) as (v & st' & ->).
    destruct (IH (v :: acc) st') as (l & s & E & LE). exists l, s. split; [exact E|]. simpl in LE. lia.
  Qed.
  Lemma ask_linked code : forall m n pos st, length code - pos <= m -> m < n ->
    ask_host L fns ctx h n code pos st = res (eval_expression L false (linked fns h) ctx code pos st).
  Proof.
    assert (LAST : forall n pos st, nth_error code pos = None -> 0 < n ->
      ask_host L fns ctx h n code pos st = res (eval_expression L false (linked fns h) ctx code pos st)).
    { intros n pos st EN Hn. destruct n as [|n]; [lia|]. cbn [ask_host]. rewrite (ee_step L false fns ctx code pos st), (ee_step L false (linked fns h) ctx code pos st), EN.
      destruct (pop_false st) as (v & st' & ->). destruct st'; reflexivity. }
    induction m as [|m IH]; intros n pos st LE LT.
    - apply LAST; [apply nth_error_None; lia|lia].
    - destruct (nth_error code pos) as [i|] eqn:EN; [|apply LAST; [exact EN|lia]].
      assert (pos < length code) by (apply nth_error_Some; congruence).
      destruct n as [|n]; [lia|].
      rewrite (ee_step L false (linked fns h) ctx code pos st), EN.
      assert (GO : forall p s, eval_expression L false fns ctx code pos st = eval_expression L false fns ctx code p s -> pos < p ->
         ask_host L fns ctx h (S n) code pos st = res (eval_expression L false (linked fns h) ctx code p s)).
      { intros p s E LP. rewrite (ask_same _ _ _ _ _ _ E). apply IH; lia. }
      pose proof (ee_step L false fns ctx code pos st) as ES. rewrite EN in ES.
      destruct i; try (apply GO; [exact ES|lia]).
      + destruct (popn_false 2 [] st) as (l & s & E & LL). rewrite E in *. destruct l as [|a [|b' [|]]]; simpl in LL; try lia.
        apply GO; [exact ES|lia].
      + destruct (pop_false st) as (v & s & E). rewrite E in *. destruct (un_sem L u v); [apply GO; [exact ES|lia]|].
        cbn [ask_host]. rewrite ES. reflexivity.
      + destruct st as [|v s]; destruct (Bool.eqb _ _); (apply GO; [exact ES|lia]).
      + destruct (popn_false num_args [] st) as (l & s & E & LL). rewrite E in *. unfold linked at 1. destruct (fns id) as [g|] eqn:EF.
        * apply GO; [exact ES|lia].
        * cbn [ask_host]. rewrite ES. apply IH; lia.
      + destruct (popn_false 2 [] st) as (l & s & E & LL). rewrite E in *. destruct l as [|a [|b' [|]]]; simpl in LL; try lia.
        apply GO; [exact ES|lia].
      + destruct (popn_false n0 [] st) as (l & s & E & LL). rewrite E in *. apply GO; [exact ES|lia].
  Qed.
End H.

(** *** The parser never panics *)
Definition jmp_in (n : nat) (o : op) : Prop := match o with OBin _ (Some j) => j < n | _ => True end.
Definition isfun (o : op) : bool := match o with OFun _ _ => true | _ => false end.
Definition nfun (ops : list op) : nat := length (filter isfun ops).
Definition pinv (out : list instr) (ops : list op) (cnt : list Z) : Prop :=
  Forall (jmp_in (length out)) ops /\ nfun ops = length cnt.
Lemma jmp_in_mono n m o : n <= m -> jmp_in n o -> jmp_in m o.
Proof. destruct o as [b [j|]| | | |]; simpl; auto; lia. Qed.
Lemma jmps_mono n m ops : n <= m -> Forall (jmp_in n) ops -> Forall (jmp_in m) ops.
Proof. intros LE F. eapply Forall_impl; [|exact F]. intros o. apply jmp_in_mono, LE. Qed.
Lemma upd_length {A} : forall (l : list A) i x, length (upd i x l) = length l.
Proof. induction l as [|y l IH]; intros [|i] x; simpl; auto. Qed.
Lemma emit_ok b j out : jmp_in (length out) (OBin b j) -> exists out', emit_bin b j out = Some out' /\ length out' = S (length out).
Proof.
  intro H. unfold emit_bin, patch. destruct j as [j|].
  - simpl in H. destruct (nth_error out j) as [i|] eqn:E; [|apply nth_error_None in E; lia].
    destruct i; eexists; (split; [reflexivity|]); rewrite app_length, ?upd_length; simpl; lia.
  - eexists. split; [reflexivity|]. rewrite app_length. simpl. lia.
Qed.
Definition popres_ok (out : list instr) (cnt : list Z) (r : popres) : Prop :=
  match r with PopPanic => False | PopErr => True | PopOk ops' out' => pinv out' ops' cnt /\ length out <= length out' end.
Lemma loops_ok b br cnt : forall ops out, pinv out ops cnt ->
  popres_ok out cnt (close_loop br ops out) /\ popres_ok out cnt (bin_loop b ops out) /\
  popres_ok out cnt (comma_loop ops out) /\ popres_ok out cnt (end_loop ops out).
Proof.
  induction ops as [|o ops IH]; intros out [F NF].
  - simpl. repeat split; auto.
  - inversion F as [|? ? F1 F2]; subst. 
    assert (BIN : forall tb j, o = OBin tb j -> exists out', emit_bin tb j out = Some out' /\ length out < length out' /\ pinv out' ops cnt).
    { intros tb j ->. destruct (emit_ok tb j out F1) as (out' & E & LE). exists out'. split; [exact E|]. split; [lia|]. split.
      - eapply jmps_mono; [|exact F2]. lia.
      - exact NF. }
    assert (UN : forall u, o = OUn u -> pinv (out ++ [IUn u]) ops cnt).
    { intros u ->. split; [eapply jmps_mono; [|exact F2]; rewrite app_length; lia|exact NF]. }
    assert (W : forall out' r, length out <= length out' -> popres_ok out' cnt r -> popres_ok out cnt r).
    { intros out' [ops' o'| |] LE H; simpl in *; auto. destruct H. split; [assumption|lia]. }
    assert (WU : forall u r, popres_ok (out ++ [IUn u]) cnt r -> popres_ok out cnt r).
    { intros u r. apply W. rewrite app_length. lia. }
    destruct o as [tb j|u| | |id n]; cbn [close_loop bin_loop comma_loop end_loop].
    + destruct (BIN tb j eq_refl) as (out' & -> & LT & PI). destruct (IH out' PI) as (I1 & I2 & I3 & I4).
      repeat split; try (apply (W out'); [lia|assumption]).
      destruct (Nat.leb (prec b) (prec tb)); [apply (W out'); [lia|assumption]|]. simpl. repeat split; auto.
    + destruct (IH _ (UN u eq_refl)) as (I1 & I2 & I3 & I4). repeat split; eapply WU; eassumption.
    + assert (pinv out ops cnt) by (split; [exact F2|exact NF]).
      destruct br; simpl; repeat split; auto.
    + assert (pinv out ops cnt) by (split; [exact F2|exact NF]).
      destruct br; simpl; repeat split; auto.
    + simpl; repeat split; auto.
Qed.
Lemma inc_pinv out ops cnt : pinv out ops cnt -> pinv out (inc_ops ops cnt) (inc_cnt cnt).
Proof.
  intros [F NF]. unfold inc_ops, inc_cnt, inc_args. destruct cnt as [|c cnt]; [split; assumption|]. cbn [fst snd].
  assert (B1 : forall o, jmp_in (length out) o -> jmp_in (length out) (bump o)).
  { intros [| | | |id n]; simpl; auto. destruct (N.eqb id id_array_build); auto. }
  assert (B2 : forall o, isfun (bump o) = isfun o).
  { intros [| | | |id n]; simpl; auto. destruct (N.eqb id id_array_build); auto. }
  destruct ops as [|a [|o ops]]; [split; auto| |].
  - inversion F; subst. split; [repeat constructor; auto|]. unfold nfun in *. simpl in *. rewrite B2. destruct (isfun a); exact NF.
  - inversion F as [|? ? F1 F2]; subst. inversion F2; subst. split; [repeat constructor; auto|].
    unfold nfun in *. simpl in *. rewrite B2. destruct (isfun a), (isfun o); exact NF.
Qed.
Lemma ptok_ok t st : pinv (p_out st) (p_ops st) (p_cnt st) ->
  match ptok t st with POk st' => pinv (p_out st') (p_ops st') (p_cnt st') | PErr => True | PPanic => False end.
Proof.
  intro PI. destruct st as [out ops cnt last]. cbn [p_out p_ops p_cnt] in PI.
  assert (APP : forall i o c, pinv out o c -> pinv (out ++ [i]) o c).
  { intros i o c [F NF]. split; [eapply jmps_mono; [|exact F]; rewrite app_length; lia|exact NF]. }
  assert (PUSH : forall i l, match push_operand i l (mkst out ops cnt last) with POk st' => pinv (p_out st') (p_ops st') (p_cnt st') | PErr => True | PPanic => False end).
  { intros i l. unfold push_operand, mkst. cbn [p_out p_ops p_cnt]. rewrite inc_args_eq. cbn [p_out p_ops p_cnt]. apply APP, inc_pinv, PI. }
  assert (CLOSE : forall br, match (match close_loop br ops out with PopErr => PErr | PopPanic => PPanic | PopOk o u => finish_call o cnt u end) with
      POk st' => pinv (p_out st') (p_ops st') (p_cnt st') | PErr => True | PPanic => False end).
  { intro br. destruct (loops_ok BAdd br cnt ops out PI) as (H & _). destruct (close_loop br ops out) as [o u| |]; simpl in H; auto.
    destruct H as [[F NF] LE]. unfold finish_call. destruct o as [|a o]; [split; assumption|].
    destruct a; try (split; assumption). destruct cnt as [|c cnt]; [unfold nfun in NF; simpl in NF; discriminate|].
    destruct (negb _); [exact I|]. cbn [p_out p_ops p_cnt]. inversion F; subst. split; [eapply jmps_mono; [|eassumption]; rewrite app_length; lia|].
    unfold nfun in *. simpl in NF. lia. }
  destruct t; cbn [ptok p_out p_ops p_cnt p_last]; try (apply PUSH); try (apply CLOSE).
  - rewrite inc_args_eq. cbn [p_out p_ops p_cnt]. destruct (inc_pinv _ _ _ PI) as [F NF]. split; [constructor; [exact I|exact F]|].
    unfold nfun in *. simpl. lia.
  - destruct (loops_ok b false cnt ops out PI) as (_ & H & _). destruct (bin_loop b ops out) as [o u| |]; simpl in H; auto.
    destruct H as [[F NF] LE].
    assert (D : length (dec_args cnt) = length cnt) by (destruct cnt; reflexivity).
    assert (F' : forall i, Forall (jmp_in (length (u ++ [i]))) o) by (intro i; eapply jmps_mono; [|exact F]; rewrite app_length; lia).
    destruct b; cbn [p_out p_ops p_cnt]; (split; [constructor; [simpl; rewrite ?app_length; simpl; auto; try lia|auto]|unfold nfun in *; simpl; lia]).
  - destruct PI as [F NF]. split; [constructor; [exact I|exact F]|exact NF].
  - destruct PI as [F NF]. split; [constructor; [exact I|exact F]|exact NF].
  - destruct last.
    + destruct PI as [F NF]. split; [repeat (constructor; [exact I|]); exact F|]. unfold nfun in *. simpl. lia.
    + rewrite inc_args_eq. cbn [p_out p_ops p_cnt]. destruct (inc_pinv _ _ _ PI) as [F NF].
      split; [repeat (constructor; [exact I|]); exact F|]. unfold nfun in *. simpl. lia.
  - destruct (loops_ok BAdd false cnt ops out PI) as (_ & _ & H & _). destruct (comma_loop ops out) as [o u| |]; simpl in H; auto.
    destruct H as [H _]. exact H.
Qed.
Lemma parse_no_panic ts : parse ts <> ParsePanic.
Proof.
  assert (G : forall ts st, pinv (p_out st) (p_ops st) (p_cnt st) ->
    match ptoks ts st with POk st' => pinv (p_out st') (p_ops st') (p_cnt st') | PErr => True | PPanic => False end).
  { clear. induction ts as [|t ts IH]; intros st PI; cbn [ptoks]; [exact PI|]. pose proof (ptok_ok t st PI) as H.
    destruct (ptok t st); try contradiction; [apply IH, H|exact I]. }
  unfold parse. specialize (G ts pinit). destruct (ptoks ts pinit) as [st| |]; [|discriminate|].
  - assert (PI : pinv (p_out st) (p_ops st) (p_cnt st)) by (apply G; split; [constructor|reflexivity]).
    destruct (loops_ok BAdd false _ _ _ PI) as (_ & _ & _ & H). destruct (end_loop (p_ops st) (p_out st)); simpl in H; [discriminate|discriminate|contradiction].
  - exfalso. apply G. split; [constructor|reflexivity].
Qed.

(** *** Every writable tree is an expression *)
Lemma level_le b : 1 <= level b <= 7. Proof. destruct b; simpl; lia. Qed.
Lemma write_ok : forall e, writable e -> forall lvl, 1 <= lvl <= 9 -> expr lvl (write lvl e) e.
Proof.
  induction e as [v|c|u e IH|b l r IHl IHr|id es IH|es IH|e i IHe IHi] using ast_ind'; intros W lvl LV; cbn [write].
  - apply (x_up lvl 9); [lia|constructor].
  - apply (x_up lvl 9); [lia|]. destruct c as [s|n|f|]; simpl in W; try tauto; simpl.
    + apply x_str.
    + exact (x_num (NInt n)).
    + exact (x_num (NFloat f)).
  - cbn [writable] in W. assert (X : expr 8 (TUn u :: write 8 e) (EUn u e)) by (constructor; apply IH; [exact W|lia]).
    destruct (Nat.ltb_spec 8 lvl); cbn [wrap].
    + apply (x_up lvl 9); [lia|]. apply x_paren. apply (x_up 1 8); [lia|exact X].
    + apply (x_up lvl 8); [lia|exact X].
  - cbn [writable] in W. destruct W as [W1 W2]. pose proof (level_le b).
    assert (X : expr (level b) (write (level b) l ++ TBin b :: write (level b + 1) r) (EBin b l r)) by (constructor; [apply IHl|apply IHr]; (assumption || lia)).
    destruct (Nat.ltb_spec (level b) lvl); cbn [wrap].
    + apply (x_up lvl 9); [lia|]. apply x_paren. apply (x_up 1 (level b)); [lia|exact X].
    + apply (x_up lvl (level b)); [lia|exact X].
  - apply (x_up lvl 9); [lia|]. cbn [writable] in W. destruct W as [FI W]. apply x_call; [exact FI|].
    destruct es as [|e0 es0]; [constructor|]. apply xs_some. revert e0 IH W. induction es0 as [|e1 es0 IHes]; intros e0 IH W; inversion IH as [|? ? I0 I1]; subst; destruct W as [W0 W].
    + apply xs_one; [apply I0; [exact W0|lia]|discriminate].
    + change (commas (map (write 1) (e0 :: e1 :: es0))) with (write 1 e0 ++ TComma :: commas (map (write 1) (e1 :: es0))).
      apply xs_more; [apply I0; [exact W0|lia]|discriminate|]. apply IHes; assumption.
  - apply (x_up lvl 9); [lia|]. cbn [writable] in W. apply x_array.
    destruct es as [|e0 es0]; [constructor|]. apply xs_some. revert e0 IH W. induction es0 as [|e1 es0 IHes]; intros e0 IH W; inversion IH as [|? ? I0 I1]; subst; destruct W as [[W0 S0] W].
    + apply xs_one; [apply I0; [exact W0|lia]|intros _; exact S0].
    + change (commas (map (write 1) (e0 :: e1 :: es0))) with (write 1 e0 ++ TComma :: commas (map (write 1) (e1 :: es0))).
      apply xs_more; [apply I0; [exact W0|lia]|intros _; exact S0|]. apply IHes; assumption.
  - apply (x_up lvl 9); [lia|]. cbn [writable] in W. destruct W as [W1 W2].
    assert (IX : forall ts t, match t with TVar _ | TClose | TCloseB => True | _ => False end -> indexable (ts ++ [t])).
    { intros ts t T. exists ts, t. auto. }
    apply x_index; [| |apply IHi; [exact W2|lia]].
    + specialize (IHe W1 9 ltac:(lia)). destruct e; cbn [wrap]; try exact IHe. apply x_paren. apply (x_up 1 9); [lia|exact IHe].
    + destruct e as [v|c|u e|b l r|id es|es|e i']; cbn [wrap write].
      * apply (IX []). exact I.
      * apply (IX [TOpen; const_token c]). exact I.
      * cbn [Nat.ltb Nat.leb wrap]. apply (IX (TOpen :: TUn u :: write 8 e)). exact I.
      * pose proof (level_le b). destruct (Nat.ltb_spec (level b) 9); [|lia]. cbn [wrap].
        apply (IX (TOpen :: (write (level b) l ++ TBin b :: write (level b + 1) r))). exact I.
      * apply (IX (TFun id (length es) :: TOpen :: commas (map (write 1) es))). exact I.
      * apply (IX (TOpenB :: commas (map (write 1) es))). exact I.
      * match goal with |- indexable (?a ++ TOpenB :: ?b ++ [TCloseB]) => replace (a ++ TOpenB :: b ++ [TCloseB]) with ((a ++ TOpenB :: b) ++ [TCloseB]) by (rewrite <- app_assoc; reflexivity) end.
        apply IX. exact I.
Qed.

(** *** The answers left are those after the ones used *)
Lemma skipn_skipn' {A} (m : list A) : forall n k, skipn n (skipn k m) = skipn (k + n) m.
Proof. induction m as [|x m IH]; intros n k; [rewrite !skipn_nil; reflexivity|]. destruct k; [reflexivity|]. simpl. apply IH. Qed.
Lemma eval_rest L fns ctx : forall e ans v,
  snd (fst (eval L fns ctx e ans)) = OVal v -> snd (eval L fns ctx e ans) = skipn (length (fst (fst (eval L fns ctx e ans)))) ans.
Proof.
  assert (A : forall (m : step) k ans, (forall v, snd (fst m) = OVal v -> snd m = skipn (length (fst (fst m))) ans) ->
              (forall v a v', a = snd m -> snd (fst (k v a)) = OVal v' -> snd (k v a) = skipn (length (fst (fst (k v a)))) a) ->
              forall v', snd (fst (andthen m k)) = OVal v' -> snd (andthen m k) = skipn (length (fst (fst (andthen m k)))) ans).
  { intros [[cs o] rest] k ans H1 H2 v' E. destruct o as [v| | |]; simpl in *; try discriminate.
    specialize (H1 v eq_refl). specialize (H2 v rest v' eq_refl). destruct (k v rest) as [[cs' o'] rest']. simpl in *.
    rewrite H2 by exact E. rewrite app_length, H1. apply skipn_skipn'. }
  assert (R : forall (x : var) (a : list var) v', snd (fst (ret x a)) = OVal v' -> snd (ret x a) = skipn (length (fst (fst (ret x a)))) a) by reflexivity.
  induction e as [v|c|u e IH|b l r IHl IHr|id es IH|es IH|e i IHe IHi] using ast_ind'; intros ans v0 E.
  - reflexivity.
  - reflexivity.
  - cbn [eval] in *. refine (A _ _ _ _ _ _ E); [intros v; apply IH|]. intros v a v' _. destruct (un_sem L u v); [apply R|discriminate].
  - cbn [eval] in *. refine (A _ _ _ _ _ _ E); [intros v; apply IHl|]. intros v a v' _.
    assert (Q : snd (fst (andthen (eval L fns ctx r a) (fun vr a' => ret (bin_sem L b v vr) a'))) = OVal v' ->
                snd (andthen (eval L fns ctx r a) (fun vr a' => ret (bin_sem L b v vr) a')) = skipn (length (fst (fst (andthen (eval L fns ctx r a) (fun vr a' => ret (bin_sem L b v vr) a'))))) a).
    { intro E'. refine (A _ _ _ _ _ _ E'); [intros w; apply IHr|]. intros w a' v'' _. apply R. }
    destruct b; try exact Q; destruct (to_bool v); try exact Q; apply R.
  - cbn [eval] in *. match type of E with context [?F es (@nil var) ans] => set (G := F) in * end.
    assert (Q : forall acc ans v, snd (fst (G es acc ans)) = OVal v -> snd (G es acc ans) = skipn (length (fst (fst (G es acc ans)))) ans).
    { clear E ans v0. induction IH as [|e es He _ IHes]; intros acc ans v0 E.
      - simpl in *. destruct (fns id); [apply (R _ _ _ E)|]. destruct ans; [discriminate|reflexivity].
      - change (G (e :: es) acc ans) with (andthen (eval L fns ctx e ans) (fun v a' => G es (acc ++ [v]) a')) in *.
        refine (A _ _ _ _ _ _ E); [intros v; apply He|]. intros v a v' _. apply IHes. }
    exact (Q _ _ _ E).
  - cbn [eval] in *. match type of E with context [?F es (@nil var) ans] => set (G := F) in * end.
    assert (Q : forall acc ans v, snd (fst (G es acc ans)) = OVal v -> snd (G es acc ans) = skipn (length (fst (fst (G es acc ans)))) ans).
    { clear E ans v0. induction IH as [|e es He _ IHes]; intros acc ans v0 E.
      - reflexivity.
      - change (G (e :: es) acc ans) with (andthen (eval L fns ctx e ans) (fun v a' => G es (acc ++ [v]) a')) in *.
        refine (A _ _ _ _ _ _ E); [intros v; apply He|]. intros v a v' _. apply IHes. }
    exact (Q _ _ _ E).
  - cbn [eval] in *. refine (A _ _ _ _ _ _ E); [intros v; apply IHe|]. intros v a v' _ E'.
    refine (A _ _ _ _ _ _ E'); [intros w; apply IHi|]. intros w a' v'' _. apply R.
Qed.

(** *** The machine reports stack errors only when strict *)
Lemma pop_lax st : pop false st <> None. Proof. destruct st; discriminate. Qed.
Lemma popn_lax n : forall acc st, exists args st', popn false n acc st = Some (args, st') /\ length args = length acc + n.
Proof.
  induction n as [|n IH]; intros acc st; simpl.
  - exists acc, st. split; [reflexivity|lia].
  - destruct st as [|v st]; simpl.
    + destruct (IH (vdefault :: acc) []) as (a & s & E & LE). exists a, s. split; [exact E|simpl in LE; lia].
    + destruct (IH (v :: acc) st) as (a & s & E & LE). exists a, s. split; [exact E|simpl in LE; lia].
Qed.
Lemma exec_not_stack L fns ctx : forall fuel code pos st, exec L false fns ctx fuel code pos st <> EStack.
Proof.
  induction fuel as [|f IH]; intros code pos st; [discriminate|]. cbn [exec].
  assert (P2 : exists l r st', popn false 2 [] st = Some ([l; r], st')).
  { destruct (popn_lax 2 [] st) as (a & s & E & LE). destruct a as [|x [|y [|z a]]]; try discriminate LE. eauto. }
  destruct (nth_error code pos) as [[v|c|b|u|val k|id n| |n]|].
  - apply IH.
  - apply IH.
  - destruct P2 as (l & r & s & ->). apply IH.
  - destruct (pop false st) as [[v s]|] eqn:E; [|destruct (pop_lax st E)]. destruct (un_sem L u v); [apply IH|discriminate].
  - destruct st as [|v s]; [destruct (Bool.eqb false val)|destruct (Bool.eqb (to_bool v) val)]; apply IH.
  - destruct (popn_lax n [] st) as (a & s & -> & _). destruct (fns id); [apply IH|discriminate].
  - destruct P2 as (l & r & s & ->). apply IH.
  - destruct (popn_lax n [] st) as (a & s & -> & _). apply IH.
  - destruct (pop false st) as [[v s]|] eqn:E; [|destruct (pop_lax st E)]. destruct s; discriminate.
Qed.
Lemma conv_not_stack L fns ctx : forall ans code pos st, snd (converse L false fns ctx ans code pos st) <> OStack.
Proof.
  induction ans as [|a ans IH]; intros code pos st; simpl;
    pose proof (exec_not_stack L fns ctx (S (length code - pos)) code pos st) as N; unfold eval_expression;
    destruct (exec L false fns ctx (S (length code - pos)) code pos st); simpl; try discriminate; try congruence.
  specialize (IH code pos0 (a :: stack)). destruct (converse L false fns ctx ans code pos0 (a :: stack)). exact IH.
Qed.
