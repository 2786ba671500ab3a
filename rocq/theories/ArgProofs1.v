(** Proofs about what the arguments of tests and actions say: the parsers of single
    arguments, and the loop over the arguments. *)
From Coq Require Import Lia.
From Verif Require Import Base Lib Address Var Value SetVar Flags Comparator Message EditHeader
  Expr ExprTok Event Notify AddrTest Vacation Sieve Utf8 Lexer Scope StringTok HeaderVar Compile ParseArgs ParseBase Parse GrammarSpec
  GrammarProofs GrammarProofs2 GrammarProofs3 ArgBase ArgSpec.
Import ListNotations.
Local Open Scope string_scope.
Local Open Scope list_scope.

(** *** Pieces *)

Lemma among_oneof ws w : among ws w = oneof ws w.
Proof. reflexivity. Qed.
Lemma given_snoc ws (l : list piece) w us : given ws (l ++ [(Some w, us)]) = if among ws w then Some (w, us) else given ws l.
Proof.
  induction l as [|[[w'|] us'] l IH]; cbn [app given].
  - destruct (among ws w); reflexivity.
  - rewrite IH. destruct (among ws w); [reflexivity|]. reflexivity.
  - exact IH.
Qed.
Lemma given_snoc_pos ws (l : list piece) us : given ws (l ++ [(None, us)]) = given ws l.
Proof. induction l as [|[[w'|] us'] l IH]; cbn [app given]; [reflexivity|now rewrite IH|exact IH]. Qed.
Section Opt.
  Context {A : Type} (ws : list String.string) (Q : text -> list tok -> A -> Prop) (d : A).
  Lemma opt_nil : opt ws Q d [] d. Proof. reflexivity. Qed.
  Lemma opt_hit (l : list piece) w us x : among ws w = true -> Q w us x -> opt ws Q d (l ++ [(Some w, us)]) x.
  Proof. intros H X. unfold opt. rewrite given_snoc, H. exact X. Qed.
  Lemma opt_miss (l : list piece) w us x : among ws w = false -> opt ws Q d l x -> opt ws Q d (l ++ [(Some w, us)]) x.
  Proof. intros H X. unfold opt. rewrite given_snoc, H. exact X. Qed.
  Lemma opt_pos (l : list piece) us x : opt ws Q d l x -> opt ws Q d (l ++ [(None, us)]) x.
  Proof. intros X. unfold opt. rewrite given_snoc_pos. exact X. Qed.
End Opt.
Lemma positional_snoc (l : list piece) us : positional (l ++ [(None, us)]) = positional l ++ [us].
Proof. unfold positional. rewrite filter_app, map_app. reflexivity. Qed.
Lemma positional_snoc_tag (l : list piece) w us : positional (l ++ [(Some w, us)]) = positional l.
Proof. unfold positional. rewrite filter_app, map_app. cbn. apply app_nil_r. Qed.
Lemma flag_has w l b : flag w l b -> b = has w l.
Proof. unfold flag, opt, has. destruct (given _ _) as [[? ?]|]; auto. Qed.
Fixpoint shape_of (x : String.string) (ts : tags) : option (list shape) :=
  match ts with
  | [] => None
  | (n, ss) :: ts' => if String.eqb x n then Some ss else shape_of x ts'
  end.
Lemma shape_in x ts ss : shape_of x ts = Some ss -> In (x, ss) ts.
Proof.
  induction ts as [|[n s] ts IH]; cbn; [discriminate|]. destruct (String.eqb x n) eqn:E; [|auto].
  apply String.eqb_eq in E. subst n. injection 1 as <-. auto.
Qed.
Lemma legal_shape x ts ss us : shape_of x ts = Some ss -> fits_all ss us -> legal ts (Some (lit x), us).
Proof. intros S F. exists x, ss. split; [now apply shape_in|auto]. Qed.
Lemma fits_one s us : fits s us -> fits_all [s] us.
Proof. intro F. exists us, []. rewrite app_nil_r. repeat split. exact F. Qed.

Section Args.
  Variable K : cenv.
  Variable V : vst.
  Variable FU : nat.
  Notation L := (C_L K).
  Notation eats := (eats K V).
  Notation silent := (silent K V).
  Notation string_is := (string_is K V).
  Notation strings_in := (strings_in K V).
  Notation strings_are := (strings_are K V).
  Notation string1 := (string1 K V).
  Notation text_is := (text_is K).
  Notation texts_are := (texts_are K).

  Lemma eats_post {A} (m : P A) (Q : A -> list tok -> list tok -> Prop) (R : A -> Prop) :
    eats m Q -> (forall s a s', m s = Ok a s' -> p_v s = V -> R a) -> eats m (fun a us ts => Q a us ts /\ R a).
  Proof.
    intros [H0 H] X. split; [exact H0|]. intros s a s' ts E EV F. destruct (H _ _ _ _ E EV F) as (us & G & S & Y). exists us. repeat split; eauto.
  Qed.
  (** [m], then something that reads nothing *)
  Lemma eats_then {A B} (m : P A) (k : A -> P B) (Q : A -> list tok -> list tok -> Prop) (R : B -> list tok -> list tok -> Prop) :
    eats m Q -> (forall a, eats (k a) (fun b vs ts => vs = [] /\ forall us, Q a us ts -> R b us ts)) -> eats (bind m k) R.
  Proof.
    intros H1 H2. eapply eats_bind; [exact H1|]. intro a. eapply eats_weaken; [apply H2|]. cbv beta. intros b vs ts [-> X] us Y.
    rewrite app_nil_r. auto.
  Qed.
  Lemma eats_lift {A} (o : option A) (Q : A -> list tok -> list tok -> Prop) : (forall a ts, o = Some a -> Q a [] ts) -> eats (lift o) Q.
  Proof. intro H. destruct o as [a|]; [apply eats_ret; auto|apply eats_fail]. Qed.
  Lemma eats_check b {A} (k : P A) (Q : A -> list tok -> list tok -> Prop) : eats k Q -> eats (check K b ;; k) Q.
  Proof. intro H. apply eats_silent; [apply silent_check|]. intro. exact H. Qed.

  (** *** Strings *)

  Lemma string_is_string t v : string_is t v -> is_string t.
  Proof. destruct t; cbn; try contradiction; auto. Qed.
  Lemma value_of_is c : string_is (TStr c) (value_of c).
  Proof. destruct c; reflexivity. Qed.
  Lemma eats_tokenize bs : eats (tokenize K bs) (fun v us _ => us = [] /\ string_is (TVar bs) v).
  Proof.
    apply eats_post; [apply silent_tokenize|]. intros s a s' E EV. unfold tokenize in E. destruct (tokenize_string _ _ _); [|discriminate].
    destruct (register_matches _ _) as [ok s1]. destruct (tokenize_string L (resolver K s ok) bs) eqn:T; [|discriminate].
    injection E as <- <-. exists ok. unfold resolver in T. now rewrite EV in T.
  Qed.
  Lemma eats_string_tok t : eats (string_tok K t) (fun v us _ => us = [] /\ string_is t v).
  Proof.
    destruct t; try apply eats_fail; [|apply eats_tokenize]. apply eats_ret. intros. split; [reflexivity|]. apply value_of_is.
  Qed.
  Lemma eats_string_list : eats (string_list K FU false) (fun l us _ => exists vs, us = vs ++ [TBracketClose] /\ strings_in vs l /\ l <> []).
  Proof.
    assert (H : forall n acc, eats (loop n (fun l => t <- next K ;;
                      match t with
                      | TStr c => ret (inl (l ++ [value_of c]))
                      | TVar bs => v <- tokenize K bs ;; ret (inl (l ++ [v]))
                      | TComma => ret (inl l)
                      | TBracketClose => match l with
                                         | [] => if false then ret (inr l) else fail
                                         | _ => ret (inr l)
                                         end
                      | _ => fail
                      end) acc) (fun l us _ => exists vs l', us = vs ++ [TBracketClose] /\ strings_in vs l' /\ l = acc ++ l' /\ l <> [])).
    { induction n as [|n IH]; intro acc; [apply eats_never; discriminate|]. cbn [loop].
      eapply (eats_bind K V _ _ (fun r us _ => match r with
         | inl acc' => (us = [TComma] /\ acc' = acc) \/ (exists t v, us = [t] /\ string_is t v /\ acc' = acc ++ [v])
         | inr l => us = [TBracketClose] /\ l = acc /\ l <> [] end)).
      - apply eats_read. intro t. destruct t; try apply eats_fail.
        + destruct acc; [apply eats_fail|]. apply eats_ret. intros. repeat split. discriminate.
        + apply eats_ret. intros. auto.
        + apply eats_ret. intros. right. exists (TStr c), (value_of c). repeat split. apply value_of_is.
        + eapply eats_then; [apply eats_tokenize|]. intro v. apply eats_ret. intros ts. split; [reflexivity|]. intros us [-> H].
          right. exists (TVar bytes), v. auto.
      - intros [acc'|l].
        + eapply eats_weaken; [apply IH|]. cbv beta iota. intros l us ts (vs & l' & -> & S & -> & N) ws [[-> ->]|(t & v & -> & T & ->)].
          * exists (TComma :: vs), l'. repeat split; auto. now constructor.
          * exists (t :: vs), (v :: l'). rewrite <- app_assoc in *. repeat split; auto. now constructor.
        + apply eats_ret. intros ts us (-> & -> & N). exists [], [].
          split; [reflexivity|]. split; [constructor|]. split; [now rewrite app_nil_r|exact N]. }
    eapply eats_weaken; [apply (H FU [])|]. cbv beta. intros l us ts (vs & l' & E & S & X & N). cbn in X. subst l'. eauto.
  Qed.
  Lemma strings_one t v : string_is t v -> strings_are [t] [v].
  Proof. intro H. left. eauto. Qed.
  Lemma strings_list vs l : strings_in vs l -> l <> [] -> strings_are (TBracketOpen :: vs ++ [TBracketClose]) l.
  Proof. intros H N. right. eauto. Qed.
  Lemma eats_strings_tok t : eats (strings_tok K FU t) (fun l us _ => strings_are (t :: us) l).
  Proof.
    destruct t; try apply eats_fail.
    - eapply eats_weaken; [apply eats_string_list|]. cbv beta. intros l us ts (vs & -> & S & N). now apply strings_list.
    - apply eats_ret. intros. apply strings_one, value_of_is.
    - cbn [strings_tok]. eapply eats_then; [apply eats_tokenize|]. intro v. apply eats_ret. intro ts. split; [reflexivity|]. intros us [-> H].
      now apply strings_one.
  Qed.
  Lemma eats_strings : eats (strings K FU) (fun l us _ => strings_are us l).
  Proof. unfold strings. apply eats_read. intro t. apply eats_strings_tok. Qed.
  Lemma eats_string : eats (string K FU) (fun v us _ => string1 us v).
  Proof.
    unfold string. apply eats_read. intro t. destruct t; try apply eats_fail.
    - eapply eats_then; [apply eats_string_list|]. intro l. destruct l as [|x [|y l]]; try apply eats_fail. apply eats_ret. intro ts.
      split; [reflexivity|]. intros us (vs & -> & S & N). now apply strings_list.
    - apply eats_ret. intros. apply strings_one, value_of_is.
    - eapply eats_weaken; [apply eats_tokenize|]. cbv beta. intros v us ts [-> H]. now apply strings_one.
  Qed.
  Lemma eats_static : eats (static_string K FU) (fun x us _ => text_is us x).
  Proof.
    assert (H : forall n o, eats (loop n (fun o : option text => t <- next K ;;
                          match t, o with
                          | TStr c, _ => ret (inl (Some (ctext K c)))
                          | TBracketClose, Some s => ret (inr s)
                          | _, _ => fail
                          end) o) (fun x us _ => exists cs, us = map TStr cs ++ [TBracketClose] /\
                                match rev cs with [] => o = Some x | c :: _ => x = const_text L c end)).
    { induction n as [|n IH]; intro o; [apply eats_never; discriminate|]. cbn [loop].
      eapply (eats_bind K V _ _ (fun r us _ => match r with
         | inl o' => exists c, us = [TStr c] /\ o' = Some (const_text L c)
         | inr x => us = [TBracketClose] /\ o = Some x end)).
      - apply eats_read. intro t. destruct t; try apply eats_fail.
        + destruct o; [|apply eats_fail]. apply eats_ret. auto.
        + apply eats_ret. intros. eauto.
      - intros [o'|x].
        + eapply eats_weaken; [apply IH|]. cbv beta iota. intros x us ts (cs & -> & X) ws (c & -> & ->). exists (c :: cs).
          split; [reflexivity|]. cbn [rev]. destruct (rev cs); cbn [app]; [now injection X|exact X].
        + apply eats_ret. intros ts us [-> ->]. exists []. split; reflexivity. }
    unfold static_string. apply eats_read. intro t. destruct t; try apply eats_fail.
    - eapply eats_weaken; [apply H|]. cbv beta. intros x us ts (cs & -> & X). destruct (rev cs) as [|c r] eqn:E; [discriminate|].
      exists c. split; [exact X|]. right. exists (rev r). apply (f_equal (@rev _)) in E. rewrite rev_involutive in E. now subst cs.
    - apply eats_ret. intros. exists c. auto.
  Qed.
  Lemma eats_statics : eats (static_strings K FU) (fun l us _ => texts_are us l).
  Proof.
    assert (H : forall n acc, eats (loop n (fun l => t <- next K ;;
                          match t, l with
                          | TStr c, _ => ret (inl (l ++ [ctext K c]))
                          | TComma, _ => ret (inl l)
                          | TBracketClose, _ :: _ => ret (inr l)
                          | _, _ => fail
                          end) acc) (fun l us _ => exists vs l', us = vs ++ [TBracketClose] /\ texts_in K vs l' /\ l = acc ++ l' /\ l <> [])).
    { induction n as [|n IH]; intro acc; [apply eats_never; discriminate|]. cbn [loop].
      eapply (eats_bind K V _ _ (fun r us _ => match r with
         | inl acc' => (us = [TComma] /\ acc' = acc) \/ (exists c, us = [TStr c] /\ acc' = acc ++ [const_text L c])
         | inr l => us = [TBracketClose] /\ l = acc /\ l <> [] end)).
      - apply eats_read. intro t. destruct t; try apply eats_fail.
        + destruct acc; [apply eats_fail|]. apply eats_ret. intros. repeat split. discriminate.
        + apply eats_ret. intros. auto.
        + apply eats_ret. intros. right. exists c. auto.
      - intros [acc'|l].
        + eapply eats_weaken; [apply IH|]. cbv beta iota. intros l us ts (vs & l' & -> & S & -> & N) ws [[-> ->]|(c & -> & ->)].
          * exists (TComma :: vs), l'. repeat split; auto. now constructor.
          * exists (TStr c :: vs), (const_text L c :: l'). rewrite <- app_assoc in *. repeat split; auto. now constructor.
        + apply eats_ret. intros ts us (-> & -> & N). exists [], [].
          split; [reflexivity|]. split; [constructor|]. split; [now rewrite app_nil_r|exact N]. }
    unfold static_strings. apply eats_read. intro t. destruct t; try apply eats_fail.
    - eapply eats_weaken; [apply (H FU [])|]. cbv beta. intros l us ts (vs & l' & -> & S & X & N). cbn in X. subst l'. right. eauto.
    - apply eats_ret. intros. left. exists c. auto.
  Qed.

  (** Their shapes *)
  Lemma strings_in_shape vs l : strings_in vs l -> Forall (fun t => is_string t \/ t = TComma) vs.
  Proof. induction 1 as [|us l H IH|t v us l H H' IH]; constructor; auto. left. eapply string_is_string; eauto. Qed.
  Lemma strings_shape us l : strings_are us l -> a_strings us.
  Proof.
    intros [(t & v & -> & H & _)|(vs & -> & H & _)]; [left; exists t; split; [reflexivity|eapply string_is_string; eauto]|].
    right. exists vs. split; [reflexivity|]. eapply strings_in_shape; eauto.
  Qed.
  Lemma text_shape us x : text_is us x -> a_strings us.
  Proof.
    intros (c & _ & [->|(cs & ->)]); [left; exists (TStr c); split; [reflexivity|exact Logic.I]|].
    right. eexists. split; [reflexivity|]. apply Forall_forall. intros t I. apply in_map_iff in I as (y & <- & _). left. exact Logic.I.
  Qed.
  Lemma texts_shape us l : texts_are us l -> a_strings us.
  Proof.
    intros [(c & -> & _)|(vs & -> & H & _)]; [left; exists (TStr c); split; [reflexivity|exact Logic.I]|].
    right. exists vs. split; [reflexivity|]. induction H; constructor; auto. left. exact Logic.I.
  Qed.

  (** *** Other arguments *)

  Lemma eats_number max : eats (number K max) (fun n us _ => us = [TNumber n]).
  Proof.
    unfold number. apply eats_read. intro t. destruct t; try apply eats_fail. destruct (N.ltb n max); [|apply eats_fail].
    apply eats_ret. reflexivity.
  Qed.
  Lemma lookup_rel_assoc x : lookup_rel x = assoc x relations.
  Proof. reflexivity. Qed.
  Lemma eats_match_type w : oneof match_words w = true -> eats (match_type K w) (fun m us _ => match_is K w us m).
  Proof.
    intro H. apply oneof_named in H. unfold named, match_words in H. cbn [map In] in H.
    assert (VV : forall (k : rel -> mtype) w, (forall c r, assoc (const_text L c) relations = Some r -> match_is K w [TStr c] (k r)) ->
      eats (t <- next K ;;
            match t with
            | TStr c => match lookup_rel (ctext K c) with Some r => ret (k r) | None => fail end
            | _ => fail
            end) (fun m us _ => match_is K w us m)).
    { intros k w' Hk. apply eats_read. intro t. destruct t; try apply eats_fail. rewrite lookup_rel_assoc.
      destruct (assoc (ctext K c) relations) as [r|] eqn:E; [|apply eats_fail]. apply eats_ret. intros. now apply Hk. }
    destruct H as [<-|[<-|[<-|[<-|[<-|[<-|[<-|[]]]]]]]].
    - apply eats_ret. constructor.
    - apply eats_ret. constructor.
    - eapply eats_silent; [apply silent_push_match|]. intro. apply eats_ret. constructor.
    - eapply eats_silent; [apply silent_push_match|]. intro. apply eats_ret. constructor.
    - apply (VV MValue). intros. now constructor.
    - apply (VV MCount). intros. now constructor.
    - apply eats_ret. constructor.
  Qed.
  Lemma match_is_shape w us m ts : match_is K w us m -> (forall n ss, In (n, ss) (match_tags false) -> In (n, ss) ts) ->
    (w = lit "list" -> In ("list", []) ts) -> legal ts (Some w, us).
  Proof.
    intros H F G. unfold legal. cbn [fst snd].
    assert (S : forall c, fits_all [SStrings] [TStr c]).
    { intro c. apply fits_one. left. exists (TStr c). split; [reflexivity|exact Logic.I]. }
    destruct H.
    - exists "is", []. split; [apply F; cbn; tauto|split; reflexivity].
    - exists "contains", []. split; [apply F; cbn; tauto|split; reflexivity].
    - exists "matches", []. split; [apply F; cbn; tauto|split; reflexivity].
    - exists "regex", []. split; [apply F; cbn; tauto|split; reflexivity].
    - exists "list", []. split; [auto|split; reflexivity].
    - exists "value", [SStrings]. split; [apply F; cbn; tauto|split; [reflexivity|apply S]].
    - exists "count", [SStrings]. split; [apply F; cbn; tauto|split; [reflexivity|apply S]].
  Qed.
  Lemma eats_comparator : eats (parse_comparator K FU) (fun c us _ => comparator_is K us c).
  Proof.
    unfold parse_comparator. eapply eats_then; [apply eats_static|]. intro x. apply eats_ret. intros ts. split; [reflexivity|]. intros us H.
    exists x. split; [exact H|]. unfold word. cbn [assoc comparators].
    destruct (teqb x (lit "i;octet")); [reflexivity|]. destruct (teqb x (lit "i;ascii-casemap")); [reflexivity|].
    destruct (teqb x (lit "i;ascii-numeric")); reflexivity.
  Qed.
  Lemma comparator_shape us c : comparator_is K us c -> a_strings us.
  Proof. intros (x & H & _). eapply text_shape; eauto. Qed.
  Lemma zone_offset_is z off : zone_offset z = Some off ->
    (-1200 <= z <= 1400)%Z /\ off = (Z.sgn z * (Z.abs z / 100 * 3600 + Z.abs z mod 100 * 60))%Z.
  Proof.
    unfold zone_offset. destruct (Z.leb 0 z && Z.leb z 1400)%bool eqn:A.
    - apply andb_true_iff in A as [A1 A2]. apply Z.leb_le in A1, A2. injection 1 as <-. split; [lia|].
      rewrite Z.abs_eq by lia. rewrite Z.quot_div_nonneg, Z.rem_mod_nonneg by lia.
      destruct (Z.eq_dec z 0) as [->|N]; [reflexivity|]. rewrite Z.sgn_pos by lia. lia.
    - destruct (Z.leb (-1200) z && Z.leb z (-1))%bool eqn:B; [|discriminate].
      apply andb_true_iff in B as [B1 B2]. apply Z.leb_le in B1, B2. injection 1 as <-. split; [lia|].
      rewrite Z.abs_neq by lia. rewrite Z.sgn_neg by lia.
      replace (Z.quot z 100) with (- Z.quot (- z) 100)%Z by (rewrite Z.quot_opp_l by lia; lia).
      rewrite Z.quot_div_nonneg, Z.rem_mod_nonneg by lia. lia.
  Qed.
  Lemma eats_timezone : eats (timezone K) (fun z us _ => zone_is us z).
  Proof.
    unfold timezone. apply eats_read. intro t. destruct t; try apply eats_fail. apply eats_lift. intros off ts E.
    destruct c as [s|[z|f]].
    - destruct (parse_i64 s) as [z|] eqn:P; [|discriminate]. apply zone_offset_is in E as [A B]. exists (CText s), z. auto.
    - apply zone_offset_is in E as [A B]. exists (CNum (NInt z)), z. repeat split; auto; lia.
    - apply zone_offset_is in E as [A B]. exists (CNum (NFloat f)), (Z_of_f64 f). repeat split; auto; lia.
  Qed.
  Lemma zone_shape us z : zone_is us z -> a_strings us.
  Proof. intros (c & x & -> & _). left. exists (TStr c). split; [reflexivity|exact Logic.I]. Qed.
  Lemma lookup_date_assoc x : lookup_date_part x = assoc x dateparts.
  Proof. reflexivity. Qed.
  Lemma eats_date_tok t : eats (date_tok K t) (fun d us _ => us = [] /\ datepart_is K [t] d).
  Proof.
    destruct t; try apply eats_fail. cbn [date_tok]. apply eats_lift. intros d ts E. split; [reflexivity|]. exists c.
    rewrite lookup_date_assoc in E. auto.
  Qed.
  Lemma lookup_envelope_assoc x : lookup_envelope x = assoc x envelopes.
  Proof. reflexivity. Qed.
  Definition add_env (l : list envk) (e : envk) : list envk := if in_dec envk_eq_dec e l then l else l ++ [e].
  Lemma add_env_exists l e : (if existsb (envk_eqb e) l then l else l ++ [e]) = add_env l e.
  Proof.
    unfold add_env. destruct (in_dec envk_eq_dec e l) as [I|N].
    - replace (existsb (envk_eqb e) l) with true; [reflexivity|]. symmetry. apply existsb_exists. exists e. split; [exact I|].
      unfold envk_eqb. destruct (envk_eq_dec e e); congruence.
    - replace (existsb (envk_eqb e) l) with false; [reflexivity|]. symmetry. apply not_true_is_false. intro X. apply existsb_exists in X as (y & I & E).
      unfold envk_eqb in E. destruct (envk_eq_dec e y); [subst y; contradiction|discriminate].
  Qed.
  Lemma eats_envelope_list t : eats (envelope_list K FU t) (fun l us _ => envelopes_are K (t :: us) l).
  Proof.
    assert (H : forall n acc, eats (loop n (fun l => t <- next K ;;
                          match t, l with
                          | TStr c, _ => e <- envelope_name K c ;;
                                         ret (inl (if existsb (envk_eqb e) l then l else (l ++ [e])%list))
                          | TComma, _ => ret (inl l)
                          | TBracketClose, _ :: _ => ret (inr l)
                          | _, _ => fail
                          end) acc) (fun l us _ => exists vs xs es, us = vs ++ [TBracketClose] /\ texts_in K vs xs /\
                             map (fun x => assoc (lower_text x) envelopes) xs = map Some es /\ l = fold_left add_env es acc /\ l <> [])).
    { induction n as [|n IH]; intro acc; [apply eats_never; discriminate|]. cbn [loop].
      eapply (eats_bind K V _ _ (fun r us _ => match r with
         | inl acc' => (us = [TComma] /\ acc' = acc) \/
             (exists c e, us = [TStr c] /\ assoc (lower_text (const_text L c)) envelopes = Some e /\ acc' = add_env acc e)
         | inr l => us = [TBracketClose] /\ l = acc /\ l <> [] end)).
      - apply eats_read. intro t0. destruct t0; try apply eats_fail.
        + destruct acc; [apply eats_fail|]. apply eats_ret. intros. repeat split. discriminate.
        + apply eats_ret. intros. auto.
        + unfold envelope_name. eapply (eats_then _ _ (fun e us _ => us = [] /\ lookup_envelope (lower_text (ctext K c)) = Some e)).
          * apply eats_lift. auto.
          * intro e. apply eats_ret. intros ts. split; [reflexivity|]. intros us [-> E]. rewrite lookup_envelope_assoc in E. right.
            exists c, e. rewrite add_env_exists. auto.
      - intros [acc'|l].
        + eapply eats_weaken; [apply IH|]. cbv beta iota. intros l us ts (vs & xs & es & -> & S & M & -> & N) ws [[-> ->]|(c & e & -> & E & ->)].
          * exists (TComma :: vs), xs, es. repeat split; auto. now constructor.
          * exists (TStr c :: vs), (const_text L c :: xs), (e :: es). repeat split; auto; [now constructor|]. cbn [map]. now rewrite E, M.
        + apply eats_ret. intros ts us (-> & -> & N). exists [], [], []. repeat split; auto. constructor. }
    destruct t; try apply eats_fail.
    - cbn [envelope_list]. eapply eats_weaken; [apply (H FU [])|]. cbv beta. intros l us ts (vs & xs & es & -> & S & M & -> & N).
      exists xs, es. repeat split; auto. right. exists vs. repeat split; auto. intros ->. destruct es; [|discriminate]. apply N. reflexivity.
    - cbn [envelope_list]. unfold envelope_name. eapply (eats_then _ _ (fun e us _ => us = [] /\ lookup_envelope (lower_text (ctext K c)) = Some e)).
      + apply eats_lift. auto.
      + intro e. apply eats_ret. intros ts. split; [reflexivity|]. intros us [-> E]. rewrite lookup_envelope_assoc in E.
        exists [const_text L c], [e]. repeat split; [left; eauto|]. cbn [map]. now rewrite <- E.
  Qed.
  Lemma envelopes_shape us l : envelopes_are K us l -> a_strings us.
  Proof. intros (xs & es & H & _). eapply texts_shape; eauto. Qed.
  Lemma turns_register n b : turns K V (register K n b) (fun v W us _ => us = [] /\ variable_is K V n b v W).
  Proof.
    intros s a s' ts E EV F. destruct (GrammarProofs.silent_register K n b _ _ _ _ E F) as (us & G & S & ->). exists [].
    repeat split; auto. unfold register in E. destruct (register_variable _ _ _ _ _) as [[v vs]|] eqn:R; [|discriminate].
    injection E as <- <-. rewrite EV in R. exact R.
  Qed.
  Lemma turns_variable_name t b :
    turns K V (variable_name K t b) (fun v W us _ => us = [] /\ exists c, t = TStr c /\ variable_is K V (const_text L c) b v W).
  Proof.
    destruct t; try (apply turns_never; discriminate). cbn [variable_name]. eapply turns_weaken; [apply turns_register|]. cbv beta.
    intros v W us ts [-> H]. eauto.
  Qed.
  Lemma eats_expr : eats (parse_expr K) (fun e us _ => expr_is K V us e).
  Proof.
    unfold parse_expr. apply eats_read. intro t.
    eapply (eats_bind K V _ _ (fun src us _ => us = [] /\ match t with TStr c => src = const_text L c | TVar bs => utf8_strict bs = Some src | _ => False end)).
    - apply eats_lift. intros src ts E. split; [reflexivity|]. destruct t; try discriminate; [now injection E as <-|exact E].
    - intro src. eapply eats_weaken; [apply (eats_post _ (fun _ us _ => us = []) (fun e => compile_text L (names_token K V) src = Parsed e))|].
      + apply silent_same. intros s a s' E. destruct (compile_text _ _ _); try discriminate. now injection E as <- <-.
      + intros s a s' E EV. change (token_map K s) with (names_token K (p_v s)) in E. rewrite EV in E.
        destruct (compile_text _ _ _); try discriminate. injection E as <- <-. reflexivity.
      + cbv beta. intros e us ts [-> C] vs [-> T]. exists t, src. auto.
  Qed.
End Args.
