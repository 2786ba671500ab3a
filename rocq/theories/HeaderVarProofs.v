(** Proofs about header variables. *)
From Verif Require Import Base Utf8 Lib Var Value Message Flags AddrTest Mime Build Lexer HeaderVar HeaderEval HeaderVarSpec ValueProofs EditHeader EditHeaderSpec EditHeaderProofs BuildSpec BuildProofs2.
Import ListNotations.
Local Open Scope list_scope.

(** *** Syntax *)
Section S.
  Variable hn : text -> option text.

  Lemma hrun_app a b : forall l, hrun hn (a ++ b) l = match hrun hn a l with Some l' => hrun hn b l' | None => None end.
  Proof. induction a as [|c a IH]; intro l; cbn [app hrun]; [reflexivity|]. destruct (hstep hn c l); [apply IH|reflexivity]. Qed.

  Definition plain_char (c : ch) : Prop := ~ In c (lit "[.:* ") /\ c <> 9%N /\ c <> 13%N /\ c <> 10%N.
  Lemma plain_tests c : plain_char c -> N.eqb c 91 = false /\ N.eqb c 46 = false /\ h_blank c = false /\ N.eqb c 42 = false /\ N.eqb c 58 = false.
  Proof.
    intros (A & B & C & D). cbn in A.
    assert (X : forall k, c <> k -> N.eqb c k = false) by (intros; apply N.eqb_neq; assumption).
    unfold h_blank. rewrite (X 91%N), (X 46%N), (X 42%N), (X 58%N), (X 32%N), (X 9%N), (X 13%N), (X 10%N); try assumption; try (intro; subst; tauto).
    repeat split; reflexivity.
  Qed.
  Definition mk (st : hstate) names named wild name hdr part idx : hloop :=
    {| hl_state := st; hl_names := names; hl_named := named; hl_wild := wild; hl_name := name; hl_hdr := hdr; hl_part := part; hl_idx := idx |}.
  Lemma run_name n names : forall name, Forall plain_char n ->
    hrun hn n (mk HName names false false name [] [] []) = Some (mk HName names false false (name ++ n) [] [] []).
  Proof.
    induction n as [|c n IH]; intros name H; cbn [hrun]; [rewrite app_nil_r; reflexivity|].
    inversion H as [|? ? A B]; subst. destruct (plain_tests c A) as (T1 & T2 & T3 & T4 & T5).
    unfold hstep. cbn [mk hl_state hl_names hl_named hl_wild hl_name hl_hdr hl_part hl_idx]. rewrite T1, T2, T3, T4, T5. cbn [andb negb].
    rewrite !app_nil_r. fold (mk HName names false false (name ++ [c]) [] [] []). rewrite IH by exact B. rewrite <- app_assoc. reflexivity.
  Qed.
  Lemma run_names : forall l names r ns, l <> [] -> Forall name_ok l -> map hn l = map Some ns ->
    exists n before, ns = before ++ [n] /\
    (exists last, hn last = Some n /\ last <> [] /\
     hrun hn (joined l ++ r) (mk HName names false false [] [] [] []) = hrun hn r (mk HName (names ++ before) false false last [] [] [])).
  Proof.
    induction l as [|n l IH]; intros names r ns E H Hm; [congruence|]. inversion H as [|? ? [N0 A] B]; subst.
    destruct ns as [|n' ns]; [discriminate|]. cbn in Hm. injection Hm as Hn Hm.
    destruct l as [|m l].
    - destruct ns; [|discriminate]. exists n', []. split; [reflexivity|]. exists n. split; [exact Hn|]. split; [exact N0|].
      cbn [joined]. rewrite hrun_app, run_name by exact A. cbn [app]. rewrite app_nil_r. reflexivity.
    - destruct (IH (names ++ [n']) r ns ltac:(discriminate) B Hm) as (k & before & Ens & last & L1 & L2 & L3).
      exists k, (n' :: before). split; [rewrite Ens; reflexivity|]. exists last. split; [exact L1|]. split; [exact L2|].
      change (joined (n :: m :: l)) with (n ++ lit ":" ++ joined (m :: l)).
      rewrite <- !app_assoc. rewrite hrun_app, run_name by exact A. cbn [app].
      change (lit ":") with [58%N]. cbn [app hrun]. unfold hstep. cbn [mk hl_state hl_names hl_named hl_wild hl_name hl_hdr hl_part hl_idx].
      change (N.eqb 58 91) with false. change (N.eqb 58 46) with false. change (h_blank 58%N) with false. change (N.eqb 58 42) with false.
      change (N.eqb 58 58) with true. destruct n as [|c n]; [congruence|]. cbn [is_nil negb andb]. rewrite Hn.
      fold (mk HName (names ++ [n']) false false [] [] [] []). rewrite L3. rewrite <- app_assoc. reflexivity.
  Qed.

  (** An index that has been read *)
  Definition index_chars (i : index) : text := match i with IxNone => [] | IxAll => lit "*" | IxAt z => show_Z z end.
  Definition inner_char (c : ch) : Prop := N.eqb c 93 = false /\ h_blank c = false.
  Lemma index_text_eq i : i <> IxNone -> index_text i = [91%N] ++ index_chars i ++ [93%N].
  Proof. destruct i; [congruence|reflexivity|reflexivity]. Qed.
  Lemma digits_inner : forall s acc n, digits_val acc s = Some n -> Forall inner_char s.
  Proof.
    induction s as [|c s IH]; intros acc n H; [apply Forall_nil|]. cbn in H.
    destruct (is_digit_ascii c) eqn:D; [|discriminate]. apply Forall_cons; [|eapply IH; exact H].
    unfold is_digit_ascii in D. unfold between in D.
    assert (X : forall k, c <> k -> N.eqb c k = false) by (intros; apply N.eqb_neq; assumption).
    unfold inner_char, h_blank. rewrite (X 93%N), (X 32%N), (X 9%N), (X 13%N), (X 10%N) by lia. split; reflexivity.
  Qed.
  Lemma index_inner i : Forall inner_char (index_chars i).
  Proof.
    destruct i as [| |z]; cbn [index_chars]; [apply Forall_nil| |].
    - apply Forall_cons; [split; reflexivity|apply Forall_nil].
    - assert (X : forall n, Forall inner_char (show_N n)).
      { intro n. pose proof (parse_show_N n) as H. unfold parse_nat in H. destruct (show_N n); [discriminate|]. eapply digits_inner. exact H. }
      unfold show_Z. destruct (Z.ltb z 0); [|apply X]. apply Forall_cons; [split; reflexivity|apply X].
  Qed.

  Ltac stp := cbn [hrun]; unfold hstep; cbn [mk hl_state hl_names hl_named hl_wild hl_name hl_hdr hl_part hl_idx].
  Lemma run_index s names named wild name part idx : forall hdr, Forall inner_char s ->
    hrun hn s (mk HIndex names named wild name hdr part idx) = Some (mk HIndex names named wild name (hdr ++ s) part idx).
  Proof.
    induction s as [|c s IH]; intros hdr H; [rewrite app_nil_r; reflexivity|]. inversion H as [|? ? [A1 A2] B]; subst.
    stp. rewrite A1, A2. rewrite !app_nil_r. fold (mk HIndex names named wild name (hdr ++ [c]) part idx).
    rewrite IH by exact B. rewrite <- app_assoc. reflexivity.
  Qed.
  Lemma run_pindex s names named wild name part hdr : forall idx, Forall inner_char s ->
    hrun hn s (mk HPartIndex names named wild name hdr part idx) = Some (mk HPartIndex names named wild name hdr part (idx ++ s)).
  Proof.
    induction s as [|c s IH]; intros idx H; [rewrite app_nil_r; reflexivity|]. inversion H as [|? ? [A1 A2] B]; subst.
    stp. rewrite A1, A2. rewrite !app_nil_r. fold (mk HPartIndex names named wild name hdr part (idx ++ [c])).
    rewrite IH by exact B. rewrite <- app_assoc. reflexivity.
  Qed.
  Definition part_char (c : ch) : Prop := ~ In c (lit "[ ") /\ c <> 9%N /\ c <> 13%N /\ c <> 10%N.
  Lemma run_part s names named wild name idx hdr : forall part, Forall part_char s ->
    hrun hn s (mk HPart names named wild name hdr part idx) = Some (mk HPart names named wild name hdr (part ++ s) idx).
  Proof.
    induction s as [|c s IH]; intros part H; [rewrite app_nil_r; reflexivity|]. inversion H as [|? ? (A1 & A2 & A3 & A4) B]; subst.
    assert (X : forall k, c <> k -> N.eqb c k = false) by (intros; apply N.eqb_neq; assumption). cbn in A1.
    stp. unfold h_blank. rewrite (X 91%N), (X 32%N), (X 9%N), (X 13%N), (X 10%N) by (try assumption; intro; subst; tauto). cbn [orb].
    rewrite !app_nil_r. fold (mk HPart names named wild name hdr (part ++ [c]) idx).
    rewrite IH by exact B. rewrite <- app_assoc. reflexivity.
  Qed.
  Lemma chars_nonempty i : i <> IxNone -> is_nil (index_chars i) = false.
  Proof.
    destruct i as [| |z]; [congruence|reflexivity|]. intros _. cbn [index_chars]. unfold show_Z. destruct (Z.ltb z 0); [reflexivity|].
    pose proof (parse_show_N (Z.to_N z)) as H. destruct (show_N (Z.to_N z)); [discriminate|reflexivity].
  Qed.

  (** The tail of a reference *)
  Definition some_i (i : index) : bool := match i with IxNone => false | _ => true end.
  Lemma run_hdr i names wild name r : hrun hn (index_text i ++ r) (mk HName names false wild name [] [] []) =
    hrun hn r (mk HName names (some_i i) wild name (index_chars i) [] []).
  Proof.
    destruct (some_i i) eqn:S; [|destruct i; [reflexivity|discriminate|discriminate]].
    rewrite index_text_eq by (intro; subst; discriminate). rewrite <- !app_assoc. cbn [app]. stp.
    change (N.eqb 91 91) with true. cbn [is_nil]. fold (mk HIndex names true wild name [] [] []).
    rewrite hrun_app, run_index by apply index_inner. cbn [app]. stp. reflexivity.
  Qed.
  Lemma run_tail hdr part idx names wild name :
    (part = None -> hdr = IxNone -> idx = IxNone) -> (forall p, part = Some p -> p <> [] /\ Forall part_char p) ->
    exists st named, hrun hn (match part with Some p => lit "." ++ p | None => [] end ++ index_text idx)
      (mk HName names (some_i hdr) wild name (index_chars hdr) [] []) =
      Some (mk st names named wild name (index_chars hdr) (match part with Some p => p | None => [] end) (index_chars idx)).
  Proof.
    intros A B. destruct part as [p|].
    - destruct (B p eq_refl) as [Np Fp]. rewrite <- app_assoc. change (lit ".") with [46%N]. cbn [app]. stp.
      change (N.eqb 46 91) with false. change (N.eqb 46 46) with true. cbv iota beta.
      fold (mk HPart names true wild name (index_chars hdr) [] []). rewrite hrun_app, run_part by exact Fp. cbn [app].
      destruct (some_i idx) eqn:S.
      + rewrite index_text_eq by (intro; subst; discriminate). cbn [app]. stp. change (N.eqb 91 91) with true. cbv iota beta.
        fold (mk HPartIndex names true wild name (index_chars hdr) p []). rewrite hrun_app, run_pindex by apply index_inner.
        cbn [app]. stp. change (N.eqb 93 93) with true. cbv iota beta. eexists _, _. reflexivity.
      + destruct idx; [|discriminate|discriminate]. eexists _, _. reflexivity.
    - cbn [app]. destruct (some_i idx) eqn:S.
      + assert (H0 : hdr <> IxNone) by (intro X; rewrite (A eq_refl X) in S; discriminate).
        rewrite index_text_eq by (intro; subst; discriminate). cbn [app]. stp. change (N.eqb 91 91) with true. cbv iota beta.
        rewrite (chars_nonempty hdr H0). cbn [is_nil].
        fold (mk HPartIndex names true wild name (index_chars hdr) [] []). rewrite hrun_app, run_pindex by apply index_inner.
        cbn [app]. stp. change (N.eqb 93 93) with true. cbv iota beta. eexists _, _. reflexivity.
      + destruct idx; [|discriminate|discriminate]. eexists _, _. reflexivity.
  Qed.
  Lemma hindex_value wild i : index_ok i -> hindex wild (index_chars i) = Some (index_value wild i).
  Proof.
    destruct i as [| |z]; intro H; [reflexivity|reflexivity|]. cbn [index_chars index_value].
    pose proof (chars_nonempty (IxAt z) ltac:(discriminate)) as N0. cbn [index_chars] in N0.
    unfold hindex. destruct (show_Z z) as [|c s] eqn:E; [discriminate|]. rewrite <- E in *. clear N0.
    assert (P : parse_i64 (show_Z z) = Some z).
    { apply parse_show_i64. cbn in H. unfold in_i64, i64_min, i64_max. lia. }
    destruct (teqb (show_Z z) (lit "*")) eqn:T.
    - apply teqb_spec in T. rewrite T in P. vm_compute in P. discriminate.
    - unfold parse_i32. rewrite P. cbn in H.
      assert (R : Z.leb (-2147483648) z && Z.leb z 2147483647 = true) by lia. rewrite R. reflexivity.
  Qed.

  Theorem reference_read r p names :
    reference_ok r ->
    header_part (match rf_part r with Some p => p | None => [] end) = Some p ->
    match rf_names r with Some l => map hn l = map Some names | None => names = [] end ->
    let any := match rf_names r with Some _ => false | None => true end in
    parse_header_variable hn (reference_text r) =
      Some {| hv_name := names; hv_part := p; hv_hdr := index_value any (rf_hdr r); hv_idx := index_value any (rf_idx r) |}.
  Proof.
    destruct r as [rn rh rp ri]. unfold reference_ok, reference_text. cbn [rf_names rf_hdr rf_part rf_idx].
    intros (A & B & C & D) P N. cbv zeta. unfold parse_header_variable.
    assert (D1 : rp = None -> rh = IxNone -> ri = IxNone) by (intros -> ; exact D).
    assert (D2 : forall q, rp = Some q -> q <> [] /\ Forall part_char q) by (intros q ->; exact D).
    destruct rn as [l|].
    - destruct A as [A1 A2].
      destruct (run_names l [] (index_text rh ++ match rp with Some p => lit "." ++ p | None => [] end ++ index_text ri) names A1 A2 N)
        as (n & before & En & last & L1 & L2 & L3).
      change hl0 with (mk HName [] false false [] [] [] []). rewrite L3. cbn [app]. rewrite run_hdr.
      destruct (run_tail rh rp ri before false last D1 D2) as (st & named & R).
      etransitivity; [exact (f_equal (fun o => match o with Some l => hfinish hn l | None => None end) R)|]. cbv iota beta.
      unfold hfinish. cbn [mk hl_state hl_names hl_named hl_wild hl_name hl_hdr hl_part hl_idx].
      destruct last as [|c last']; [congruence|]. cbn [is_nil]. rewrite L1. cbn [option_map]. rewrite <- En.
      destruct names as [|n1 names']; [destruct before; discriminate|]. cbn [is_nil negb orb].
      match goal with |- context [header_part ?x] => replace (header_part x) with (Some p) by (symmetry; exact P) end.
      rewrite !hindex_value by assumption. reflexivity.
    - subst names. change (lit "*") with [42%N]. cbn [app]. change hl0 with (mk HName [] false false [] [] [] []). stp.
      change (N.eqb 42 91) with false. change (N.eqb 42 46) with false. change (h_blank 42%N) with false. change (N.eqb 42 42) with true.
      cbn [negb is_nil andb]. fold (mk HName [] false true [] [] [] []). rewrite run_hdr.
      destruct (run_tail rh rp ri [] true [] D1 D2) as (st & named & R).
      etransitivity; [exact (f_equal (fun o => match o with Some l => hfinish hn l | None => None end) R)|]. cbv iota beta.
      unfold hfinish. cbn [mk hl_state hl_names hl_named hl_wild hl_name hl_hdr hl_part hl_idx is_nil negb orb].
      match goal with |- context [header_part ?x] => replace (header_part x) with (Some p) by (symmetry; exact P) end.
      rewrite !hindex_value by assumption. reflexivity.
  Qed.
End S.

(** *** Evaluation *)
Lemma pick_chosen {X} i (l : list X) : i <> 0%Z -> chosen i l (match pick i l with Some x => [x] | None => [] end).
Proof.
  intro H. unfold pick, chosen. destruct (Z.ltb_spec 0 i).
  - destruct (nth_error l (Z.to_nat (i - 1))) as [x|] eqn:E.
    + right; left. apply nth_error_split in E as (a & b & E & F). exists a, x, b. split; [exact E|]. split; [reflexivity|]. left. lia.
    + right; right. apply nth_error_None in E. split; [exact H|]. split; [lia|reflexivity].
  - destruct (nth_error (rev l) (Z.to_nat (Z.abs i - 1))) as [x|] eqn:E.
    + right; left. apply nth_error_split in E as (a & b & E & F). exists (rev b), x, (rev a). split.
      * rewrite <- (rev_involutive l), E, rev_app_distr. cbn [rev]. rewrite <- app_assoc. reflexivity.
      * split; [reflexivity|]. right. rewrite rev_length. lia.
    + right; right. apply nth_error_None in E. rewrite rev_length in E. split; [exact H|]. split; [lia|reflexivity].
Qed.

Section E.
  Variable L : rustlib.
  Variable A : addrparser.
  Variable P : hvparser.
  Notation eval_part := (eval_part L A P).
  Notation eval_parts := (eval_parts L A P).
  Notation eval_header := (eval_header L A P).

  Lemma eval_part_total v raw h : hv_part v <> HpRawName -> exists l, eval_part v raw h = Some l.
  Proof.
    intro H. unfold HeaderEval.eval_part. cbv zeta. destruct (hv_part v); try congruence.
    - destruct (value_of P h); eexists; reflexivity.
    - eexists; reflexivity.
    - destruct (is_id h); [destruct (value_of P h); eexists; reflexivity|].
      destruct (fh_other h); [|eexists; reflexivity]. destruct (hp_id P _); eexists; reflexivity.
    - destruct (value_of P h); try (eexists; reflexivity). destruct (get_range raw _ _); [|eexists; reflexivity].
      destruct (hp_addresses P _); eexists; reflexivity.
    - eexists; reflexivity.
    - eexists; reflexivity.
    - eexists; reflexivity.
    - eexists; reflexivity.
  Qed.
  Lemma eval_parts_total v raw : hv_part v <> HpRawName -> forall hs,
    exists ls, Forall2 (fun h l => eval_part v raw h = Some l) hs ls /\ eval_parts v raw hs = Some (concat ls).
  Proof.
    intro H. induction hs as [|h hs (ls & F & E)]; [exists []; split; [constructor|reflexivity]|].
    destruct (eval_part_total v raw h H) as [l Hl]. exists (l :: ls). split; [constructor; assumption|].
    cbn [HeaderEval.eval_parts]. rewrite Hl, E. reflexivity.
  Qed.
  Lemma eval_selection v st part p :
    hv_name v <> [] -> nth_error (fs_parts st) part = Some p -> hv_part v <> HpRawName ->
    exists sel ls, chosen (hv_hdr v) (fields_named (hv_name v) (fp_headers p)) sel /\
      Forall2 (fun h l => eval_part v (fs_raw st) h = Some l) sel ls /\
      eval_header v st part = Some (as_value v (concat ls)).
  Proof.
    intros N Hp R. unfold HeaderEval.eval_header. rewrite Hp. destruct (hv_name v) as [|n0 ns] eqn:En; [congruence|].
    fold (fields_named (n0 :: ns) (fp_headers p)). set (hs := fields_named (n0 :: ns) (fp_headers p)).
    destruct (Z.eqb (hv_hdr v) 0) eqn:Z0.
    - apply Z.eqb_eq in Z0. destruct (eval_parts_total v (fs_raw st) R hs) as (ls & F2 & E). exists hs, ls.
      split; [left; auto|]. split; [exact F2|].
      change (filter (fun h : fheader => existsb (hn_eqb (h_name (fh_view h))) (n0 :: ns)) (fp_headers p)) with hs.
      rewrite E. unfold as_value. rewrite (proj2 (Z.eqb_eq _ _) Z0). destruct (concat ls) as [|x [|y l]]; reflexivity.
    - apply Z.eqb_neq in Z0. pose proof (pick_chosen (hv_hdr v) hs Z0) as C.
      change (filter (fun h : fheader => existsb (hn_eqb (h_name (fh_view h))) (n0 :: ns)) (fp_headers p)) with hs.
      destruct (pick (hv_hdr v) hs) as [h|] eqn:Pk.
      + destruct (eval_part_total v (fs_raw st) h R) as [l Hl]. exists [h], [l]. split; [exact C|].
        split; [constructor; [exact Hl|constructor]|]. rewrite Hl. cbn [concat]. rewrite app_nil_r.
        unfold as_value. apply Z.eqb_neq in Z0. rewrite Z0. destruct l as [|x [|y l]]; reflexivity.
      + exists [], []. split; [exact C|]. split; [constructor|]. reflexivity.
  Qed.

  Lemma chosen_map {X Y} (g : X -> Y) i l sel : chosen i l sel -> chosen i (map g l) (map g sel).
  Proof.
    intros [[H ->]|[(a & x & b & -> & -> & H)|(H1 & H2 & ->)]].
    - left. auto.
    - right; left. exists (map g a), (g x), (map g b). rewrite map_app. split; [reflexivity|]. split; [reflexivity|]. rewrite !map_length. exact H.
    - right; right. rewrite map_length. auto.
  Qed.
  Lemma items_one_of {X} i (f : X -> option var) l : one_of i (map (fun x => or_default (f x)) l) (items i f l).
  Proof.
    unfold items, one_of. destruct (Z.eqb i 0) eqn:Z0.
    - apply Z.eqb_eq in Z0. exists (map (fun x => or_default (f x)) l). split; [left; auto|]. destruct (map _ l); reflexivity.
    - apply Z.eqb_neq in Z0. pose proof (pick_chosen i l Z0) as C. apply (chosen_map (fun x => or_default (f x))) in C.
      eexists. split; [exact C|]. destruct (pick i l); reflexivity.
  Qed.
  Lemma items_map {X} i (f : X -> option var) (g : X -> var) l : (forall x, or_default (f x) = g x) -> one_of i (map g l) (items i f l).
  Proof. intro H. pose proof (items_one_of i f l) as O. rewrite (map_ext _ g H) in O. exact O. Qed.

  Lemma eval_text v raw h t : hv_part v = HpText -> value_of P h = FvText t -> (-1 <= hv_idx v <= 1)%Z -> eval_part v raw h = Some [VStr t].
  Proof.
    intros A1 A2 A3. unfold HeaderEval.eval_part. cbv zeta. rewrite A1, A2.
    assert (R : Z.leb (-1) (hv_idx v) && Z.leb (hv_idx v) 1 = true) by lia. rewrite R. reflexivity.
  Qed.
  Lemma eval_texts v raw h l : hv_part v = HpText -> value_of P h = FvTextList l -> exists out, eval_part v raw h = Some out /\ one_of (hv_idx v) (map VStr l) out.
  Proof.
    intros A1 A2. unfold HeaderEval.eval_part. cbv zeta. rewrite A1, A2. eexists. split; [reflexivity|]. apply items_map. reflexivity.
  Qed.
  Lemma eval_shown v raw h l : hv_part v = HpText -> value_of P h = FvAddress l ->
    exists out, eval_part v raw h = Some out /\ one_of (hv_idx v) (map shown l) out.
  Proof.
    intros A1 A2. unfold HeaderEval.eval_part. cbv zeta. rewrite A1, A2; eexists; (split; [reflexivity|]); apply items_map; intro a.
    unfold shown, addr_text. cbn. destruct (ad_name a), (ad_addr a); reflexivity.
  Qed.
  Lemma strict_part p a : or_default (option_map VStr (part_eval_strict A p a)) = mailbox_part (ap_part A) p a.
  Proof.
    destruct p; cbn; destruct (ad_addr a) as [[|c e]|]; try destruct (ad_name a); try reflexivity;
      match goal with |- context [ap_part A ?p ?x] => destruct (ap_part A p x) end; reflexivity.
  Qed.
  Lemma eval_addresses v raw h l p : hv_part v = HpAddress p -> value_of P h = FvAddress l ->
    exists out, eval_part v raw h = Some out /\ one_of (hv_idx v) (map (mailbox_part (ap_part A) p) l) out.
  Proof.
    intros A1 A2. unfold HeaderEval.eval_part. cbv zeta. rewrite A1, A2; eexists; (split; [reflexivity|]); apply items_map; intro a.
    apply strict_part.
  Qed.
  Lemma squeeze : forall bs, squeezed bs (sanitize_go bs false) /\
    forall w, w <> [] -> Forall blank_byte w -> squeezed (w ++ bs) (sanitize_go bs true).
  Proof.
    induction bs as [|c bs [IH1 IH2]]; [split; [apply sq_end, Forall_nil|]|].
    - intros w W F. rewrite app_nil_r. apply sq_end. exact F.
    - cbn [sanitize_go].
      destruct (N.eqb c 32 || N.eqb c 9 || N.eqb c 10 || N.eqb c 12 || N.eqb c 13)%N eqn:B.
      + assert (C : blank_byte c).
        { unfold blank_byte. repeat (apply orb_true_iff in B as [B|B]); apply N.eqb_eq in B; subst; cbn; tauto. }
        split.
        * apply (IH2 [c]); [discriminate|]. apply Forall_cons; [exact C|apply Forall_nil].
        * intros w W F. replace (w ++ c :: bs) with ((w ++ [c]) ++ bs) by (rewrite <- app_assoc; reflexivity). apply IH2.
          -- intro H. apply app_eq_nil in H. destruct H as [_ H]. discriminate.
          -- apply Forall_app. split; [exact F|]. apply Forall_cons; [exact C|apply Forall_nil].
      + assert (C : ~ blank_byte c).
        { intro H. unfold blank_byte in H. repeat (destruct H as [H|H]; [subst c; cbn in B; discriminate|]). exact H. }
        split; [apply sq_char; assumption|]. intros w W F. apply sq_run; assumption.
  Qed.
  Lemma mid_slice x b y i j : length x = i -> length (x ++ b) = j -> get_range (x ++ b ++ y) i j = Some b.
  Proof.
    intros <- <-. unfold get_range, slice. rewrite !app_length.
    assert (R : Nat.leb (length x) (length x + length b) && Nat.leb (length x + length b) (length x + (length b + length y)) = true)
      by (rewrite !(proj2 (Nat.leb_le _ _)); [reflexivity|lia|lia]).
    rewrite R. f_equal. rewrite skipn_app, skipn_all, Nat.sub_diag. cbn [app skipn].
    replace (length x + length b - length x) with (length b) by lia. rewrite firstn_app, firstn_all, Nat.sub_diag. cbn. apply app_nil_r.
  Qed.
  Lemma eval_raw v raw h b : hv_part v = HpRaw -> value_bytes raw h b ->
    exists b', squeezed b b' /\ eval_part v raw h = Some [VStr (into_string b')].
  Proof.
    intros A1 (x & y & -> & X & Y). exists (sanitize_go b false). split; [apply squeeze|].
    unfold HeaderEval.eval_part. cbv zeta. rewrite A1, (mid_slice x b y _ _ X Y). reflexivity.
  Qed.
  Lemma eval_raw_name v raw h n : hv_part v = HpRawName -> name_bytes raw h (utf8 n) -> Forall scalar n -> eval_part v raw h = Some [VStr n].
  Proof.
    intros A1 (x & y & -> & X & Y) S. unfold HeaderEval.eval_part. cbv zeta. rewrite A1.
    assert (Z : Nat.eqb (fh_start h) 0 = false) by (apply Nat.eqb_neq; lia). rewrite Z.
    rewrite (mid_slice x (utf8 n) y (fh_field h) (fh_start h - 1) X ltac:(lia)). cbn [option_map or_default]. rewrite strict_utf8 by exact S. reflexivity.
  Qed.
  Lemma find_attribute l n : attribute l n (match find (fun a => teqb_ic (fst a) n) l with Some a => snd a | None => [] end).
  Proof.
    induction l as [|[m v] l IH]; [right; auto|]. cbn [find fst]. destruct (teqb_ic m n) eqn:E.
    - left. exists [], m, l. auto.
    - destruct IH as [(a & n' & b & Q & H1 & H2)|[H1 H2]].
      + left. exists ((m, v) :: a), n', b. split; [cbn [app]; f_equal; exact Q|]. split; [exact H1|]. apply Forall_cons; assumption.
      + right. split; [exact H1|]. apply Forall_cons; assumption.
  Qed.
  Lemma eval_attribute v raw h ct n : hv_part v = HpContentType (CpAttribute n) -> value_of P h = FvContentType ct ->
    exists t, attribute (match ct_attrs ct with Some l => l | None => [] end) n t /\ eval_part v raw h = Some [VStr t].
  Proof.
    intros A1 A2. unfold HeaderEval.eval_part. cbv zeta. rewrite A1, A2. destruct (ct_attrs ct) as [l|].
    - eexists. split; [apply find_attribute|]. destruct (find _ l) as [[]|]; reflexivity.
    - exists []. split; [right; auto|reflexivity].
  Qed.
  Lemma eval_type v raw h ct : value_of P h = FvContentType ct ->
    (hv_part v = HpContentType CpType -> eval_part v raw h = Some [VStr (ct_type ct)]) /\
    (hv_part v = HpContentType CpSubtype -> eval_part v raw h = Some [text_or_empty (ct_subtype ct)]) /\
    (hv_part v = HpText -> eval_part v raw h = Some [VStr (match ct_subtype ct with Some s => ct_type ct ++ lit "/" ++ s | None => ct_type ct end)]).
  Proof.
    intros A2. unfold HeaderEval.eval_part. cbv zeta. repeat split; intro A1; rewrite A1, A2; try reflexivity. destruct (ct_subtype ct); reflexivity.
  Qed.
  (** Header fields looked at one by one *)
  Lemma eval_each v st part p (value : fheader -> var) :
    hv_name v <> [] -> nth_error (fs_parts st) part = Some p -> hv_part v <> HpRawName ->
    (forall h, In h (fields_named (hv_name v) (fp_headers p)) -> eval_part v (fs_raw st) h = Some [value h]) ->
    exists sel, chosen (hv_hdr v) (fields_named (hv_name v) (fp_headers p)) sel /\ eval_header v st part = Some (as_value v (map value sel)).
  Proof.
    intros N Hp T V. destruct (eval_selection v st part p N Hp T) as (sel & ls & C & F & E).
    exists sel. split; [exact C|]. rewrite E. do 2 f_equal.
    assert (S : incl sel (fields_named (hv_name v) (fp_headers p))).
    { destruct C as [[_ ->]|[(a & x & b & -> & -> & _)|(_ & _ & ->)]].
      - apply incl_refl.
      - intros y [<-|[]]. apply in_or_app. right. left. reflexivity.
      - intros y []. }
    clear C E. induction F as [|h l sel ls Hl F IH]; [reflexivity|]. cbn [concat map].
    rewrite V in Hl; [|apply S; left; reflexivity]. injection Hl as <-.
    rewrite IH; [reflexivity|]. intros y Hy. apply S. right. exact Hy.
  Qed.
  Lemma eval_exists v st part p : hv_name v <> [] -> nth_error (fs_parts st) part = Some p -> hv_part v = HpExists ->
    exists sel, chosen (hv_hdr v) (fields_named (hv_name v) (fp_headers p)) sel /\ eval_header v st part = Some (as_value v (map (fun _ => VInt 1) sel)).
  Proof.
    intros N Hp T. apply (eval_each v st part p (fun _ => VInt 1) N Hp); [congruence|]. intros h _. unfold HeaderEval.eval_part. rewrite T. reflexivity.
  Qed.
  Lemma eval_any_texts v st part p (text_of : fheader -> text) :
    hv_name v = [] -> nth_error (fs_parts st) part = Some p -> hv_part v = HpText ->
    (forall h, In h (fp_headers p) -> value_of P h = FvText (text_of h)) ->
    eval_header v st part = Some (as_value v (map (fun h => VStr (h_name (fh_view h) ++ lit ": " ++ text_of h)) (fp_headers p))).
  Proof.
    intros N Hp T V. unfold HeaderEval.eval_header. rewrite Hp, N.
    assert (R : forall hs, incl hs (fp_headers p) ->
      eval_any L A P v (fs_raw st) hs = Some (map (fun h => VStr (h_name (fh_view h) ++ lit ": " ++ text_of h)) hs)).
    { induction hs as [|h hs IH]; intro S; [reflexivity|]. cbn [eval_any map]. rewrite T, V by (apply S; left; reflexivity).
      rewrite IH by (intros y Hy; apply S; right; exact Hy). reflexivity. }
    rewrite R by apply incl_refl. destruct (map _ (fp_headers p)) as [|x [|y l]]; reflexivity.
  Qed.
  Lemma eval_all_texts v st part p (text_of : fheader -> text) :
    hv_name v <> [] -> nth_error (fs_parts st) part = Some p -> hv_part v = HpText -> (-1 <= hv_idx v <= 1)%Z ->
    (forall h, In h (fields_named (hv_name v) (fp_headers p)) -> value_of P h = FvText (text_of h)) ->
    exists sel, chosen (hv_hdr v) (fields_named (hv_name v) (fp_headers p)) sel /\
      eval_header v st part = Some (as_value v (map (fun h => VStr (text_of h)) sel)).
  Proof.
    intros N Hp T I V. apply (eval_each v st part p (fun h => VStr (text_of h)) N Hp); [congruence|].
    intros h Hh. apply eval_text; auto.
  Qed.
  Lemma update_nth_at {X} (f : X -> option X) : forall l i l', update_nth i f l = Some l' ->
    exists x y, nth_error l i = Some x /\ f x = Some y /\ nth_error l' i = Some y.
  Proof.
    induction l as [|a l IH]; intros [|i] l' H; cbn in H; try discriminate.
    - destruct (f a) as [y|] eqn:F; [|discriminate]. injection H as <-. exists a, y. cbn. auto.
    - destruct (update_nth i f l) as [m|] eqn:U; [|discriminate]. injection H as <-. cbn. exact (IH i m U).
  Qed.
  Lemma existsb_self n : existsb (teqb_ic n) [n] = true.
  Proof. cbn. rewrite teqb_ic_refl. reflexivity. Qed.
  (** A header that has been added is the one its name refers to. *)
  Lemma inserted_seen o st part n v st' : finsert o st part n v true = Some st' ->
    eval_header {| hv_name := [n]; hv_part := HpText; hv_hdr := -1; hv_idx := -1 |} st' part = Some (Some (VStr v)).
  Proof.
    unfold finsert. destruct (update_nth part _ (fs_parts st)) as [ps|] eqn:U; [|discriminate]. cbn [option_map]. intro H. injection H as <-.
    destruct (update_nth_at _ _ _ _ U) as (p & q & Hp & Hq & Q). injection Hq as <-.
    unfold HeaderEval.eval_header. cbn [fs_parts fs_raw]. rewrite Q. cbn [hv_name hv_hdr hv_idx hv_part].
    destruct p as [hs ct b e i j k]. cbn [set_fheaders fp_headers]. rewrite filter_app. cbn [filter].
    change (h_name (fh_view (new_fheader o n v))) with n. change hn_eqb with teqb_ic. rewrite existsb_self.
    unfold pick. change (Z.ltb 0 (-1)) with false. cbv iota. rewrite rev_app_distr. cbn [rev app]. reflexivity.
  Qed.
  Lemma added_seen M prot max name value part st st' :
    fadd_header L M prot max name value true part st = Some st' ->
    st' = st \/ exists n v, hn_parse M (filter (fun c => chr_is_alnum L c || N.eqb c 45) name) = Some n /\ cut_to max (no_crlf value) v /\
      eval_header {| hv_name := [n]; hv_part := HpText; hv_hdr := -1; hv_idx := -1 |} st' part = Some (Some (VStr v)).
  Proof.
    unfold fadd_header. cbv zeta. destruct (filter _ name) as [|c l]; [intro H; injection H as <-; auto|].
    destruct (hn_parse M (c :: l)) as [hn|]; [|intro H; injection H as <-; auto].
    destruct (existsb _ prot); [intro H; injection H as <-; auto|]. intro H. right. exists hn, (remove_crlf max value).
    split; [reflexivity|]. split; [apply remove_crlf_cut|]. eapply inserted_seen. exact H.
  Qed.

  (** *** Body variables *)
  Definition is_header (v : msgvar) : bool := match v with MvHeader _ => true | _ => false end.
  Lemma evolved_nth st st' i : evolved st st' -> match nth_error (fs_parts st) i, nth_error (fs_parts st') i with
    | Some p, Some p' => fp_body p' = fp_body p /\ fp_ob p' = fp_ob p /\ fp_oe p' = fp_oe p
    | None, None => True
    | _, _ => False
    end.
  Proof.
    intros (_ & F). revert i. induction F as [|p p' l l' (hs & -> & _) F IH]; intros [|i]; cbn [nth_error]; try exact Logic.I.
    - destruct p. cbn. auto.
    - apply IH.
  Qed.
  Lemma body_unchanged tb hb st st' part v : evolved st st' -> is_header v = false ->
    eval_message L A P tb hb st' part v = eval_message L A P tb hb st part v.
  Proof.
    intros Ev H. pose proof (fun i => evolved_nth st st' i Ev) as N. destruct Ev as [R _].
    destruct v; [discriminate| | | |]; cbn [eval_message]; unfold first_part.
    - destruct tb as [|i tb]; [reflexivity|]. specialize (N i). destruct (nth_error (fs_parts st) i), (nth_error (fs_parts st') i); try tauto.
      destruct N as (-> & _). reflexivity.
    - destruct hb as [|i hb]; [reflexivity|]. specialize (N i). destruct (nth_error (fs_parts st) i), (nth_error (fs_parts st') i); try tauto.
      destruct N as (-> & _). reflexivity.
    - specialize (N part). destruct (nth_error (fs_parts st) part), (nth_error (fs_parts st') part); try tauto. destruct N as (-> & _). reflexivity.
    - specialize (N part). destruct (nth_error (fs_parts st) part), (nth_error (fs_parts st') part); try tauto.
      destruct N as (_ & -> & ->). rewrite R. reflexivity.
  Qed.
  Lemma finsert_all_evolved : forall l st st', finsert_all l st = Some st' -> evolved st st'.
  Proof.
    induction l as [|[i [n v]] l IH]; intros st st' H; cbn in H; [injection H as <-; apply evolved_refl|].
    destruct (finsert true st i n v true) as [st1|] eqn:F; [|discriminate].
    eapply evolved_trans; [eapply finsert_evolved; exact F|apply IH; exact H].
  Qed.
  Lemma replaced_body E s f b mime part st st' : freplace E s f b mime part st = Some st' ->
    exists p, nth_error (fs_parts st') part = Some p /\ fp_body p = FText b.
  Proof.
    unfold freplace. destruct (nested_ids _ part false) as [ids|]; [|discriminate].
    destruct (remove_all _ _) as [ps|]; [|discriminate]. destruct (nth_error ps part) as [p|] eqn:Hp; [|discriminate].
    destruct (Nat.ltb _ _); [discriminate|].
    destruct (if Nat.eqb part 0 then _ else _) as [[hs n] add_date].
    destruct (update_nth part _ ps) as [ps'|] eqn:U; [|discriminate]. intro H. apply finsert_all_evolved in H.
    destruct (update_nth_at _ _ _ _ U) as (p1 & q & Hp1 & Hq & Q). injection Hq as <-.
    pose proof (evolved_nth _ _ part H) as N. cbn [fs_parts] in N. rewrite Q in N.
    destruct (nth_error (fs_parts st') part) as [p'|]; [|tauto]. exists p'. split; [reflexivity|]. destruct N as [N _]. rewrite N. reflexivity.
  Qed.
End E.
Lemma part_named_read o p : part_named o p -> header_part (match o with Some p => p | None => [] end) = Some p.
Proof.
  intros [|n q H|n H].
  - reflexivity.
  - unfold part_names in H. repeat (destruct H as [H|H]; [injection H as <- <-; vm_compute; reflexivity|]). destruct H.
  - destruct n as [|c n]; [congruence|]. unfold header_part. change (at_dot (lit "attr." ++ c :: n)) with (lit "attr", c :: n).
    cbv iota beta zeta. reflexivity.
Qed.
