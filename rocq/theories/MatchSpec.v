(** Specification of match variables (C70). *)
From Verif Require Import Base Lib Var Value Flags Glob GlobSpec Comparator Message AddrTest Spam Sieve Run.
Import ListNotations.
Local Open Scope list_scope.

(** *** What a test captures *)
(** The comparator, match type and sense of a test with a match type. *)
Definition match_of (t : test) : option (comparator * mtype * bool) :=
  match t with
  | TeAddress _ _ _ _ c m _ neg | TeHeader _ _ _ _ c m _ neg | TeEnvelope _ _ _ c m _ neg
  | TeDate _ _ _ _ _ c m _ neg | TeCurrentDate _ _ c m _ neg | TeMetadata _ c m _ neg
  | TeNotifyCapability _ _ c m _ neg | TeSpam _ c m _ neg | TeVirus c m _ neg
  | TeString _ c m _ neg | TeEnvironment _ c m _ neg | TeBody _ _ c m _ neg | TeHasFlag _ _ c m neg => Some (c, m, neg)
  | _ => None
  end.
(** The variables a test is asked for, as bits. *)
Definition wanted (t : test) : N :=
  match match_of t with Some (_, MMatches p, _) | Some (_, MRegex p, _) => p | _ => 0%N end.
(** Body tests and notify_method_capability never capture. *)
Definition capturing (t : test) : Prop := match t with TeBody _ _ _ _ _ _ | TeNotifyCapability _ _ _ _ _ _ => False | _ => True end.
(** String tests that have one key. *)
Definition one_key (t : test) : Prop :=
  match t with TeString _ _ _ keys _ | TeEnvironment _ _ _ keys _ => length keys <= 1 | _ => True end.

(** The texts of a wildcard match ([globw], C02): variable 0 is the value, variable n the
    text of the n-th wildcard, each as short as possible, leftmost first. *)
Definition glob_texts (L : rustlib) (c : comparator) (p : N) (value pattern : text) (set : list (nat * text)) : Prop :=
  let fold := pfold (chr_is_upper L) (chr_lower L) (match c with CCasemap => true | _ => false end) in
  (forall x, chr_lower L x <> []) ->
  forall fold1, (forall x, In x value -> fold x = [fold1 x] /\ x <> replacement_char) -> wildcards pattern <= 63 ->
  exists ws, globw fold pattern (map (fun x => (fold1 x, x)) value) ws /\ set = numbered p 0 (value :: map (map snd) ws) /\
    forall ws', globw fold pattern (map (fun x => (fold1 x, x)) value) ws' ->
      lexle (map (@length _) ws) (map (@length _) ws').
(** The groups of a regular expression. *)
Definition regex_texts (rx : text -> text -> option (list (option text))) (p : N) (value pattern : text) (set : list (nat * text)) : Prop :=
  exists groups, rx pattern value = Some groups /\
    forall n t, In (n, t) set <-> N.testbit p (N.of_nat n) = true /\ nth_error groups n = Some (Some t).
Definition captured (L : rustlib) rx (t : test) (value key : text) (set : list (nat * text)) : Prop :=
  match match_of t with
  | Some (c, MMatches p, _) => glob_texts L c p value key set
  | Some (c, MRegex p, _) => match t with
                             | TeHasFlag _ _ _ _ _ | TeDate _ _ _ _ _ _ _ _ _ | TeCurrentDate _ _ _ _ _ _ => glob_texts L c p value key set
                             | _ => regex_texts rx p value key set
                             end
  | _ => False
  end.

(** The keys of a test and the values it looks at. *)
Definition keys_of (E : renv) (s : rst) (t : test) : list text :=
  match t with
  | TeAddress _ _ _ _ _ _ keys _ | TeHeader _ _ _ _ _ _ keys _ | TeEnvelope _ _ _ _ _ keys _ | TeDate _ _ _ _ _ _ _ keys _
  | TeCurrentDate _ _ _ _ keys _ | TeMetadata _ _ _ keys _ | TeString _ _ _ keys _ | TeEnvironment _ _ _ keys _ => txs E s keys
  | TeSpam _ _ _ key _ | TeVirus _ _ key _ => [tx E s key]
  | TeHasFlag _ flags _ _ _ => flag_tokens (E_L E) (vw E s) flags
  | _ => []
  end.
Definition looks_at (E : renv) (s : rst) (t : test) (value : text) : Prop :=
  match t with
  | TeHeader names index anychild o _ _ _ _ =>
      exists found l, find_headers (parts s) (r_part s) (parse_header_names (E_L E) (E_M E) (vw E s) names) index anychild = Some found /\
        In l found /\ In value (header_values (E_M E) (l_header l) (mimeopts_of E s o))
  | TeAddress names index anychild p _ _ _ _ =>
      exists found l, find_headers (parts s) (r_part s) (parse_header_names (E_L E) (E_M E) (vw E s) names) index anychild = Some found /\
        In l found /\ In value (address_values (E_A E) p (l_header l))
  | TeDate name index anychild p z _ _ _ _ =>
      exists n found l, header_name E s name = Some n /\ find_headers (parts s) (r_part s) [n] index anychild = Some found /\
        In l found /\ In value (date_values (E_A E) p z (l_header l))
  | TeCurrentDate z p _ _ _ _ => value = date_part (E_A E) p (E_now E z)
  | TeEnvelope wanted p z _ _ _ _ => exists item, In item (c_envelope (r_vars s)) /\ In value (envelope_values (E_L E) (E_A E) wanted p z item)
  | TeMetadata md _ _ _ _ => exists m, In (m, value) (E_metadata E) /\ md_eq m (metadata_of E s md) = true
  | TeString sources _ _ _ _ | TeEnvironment sources _ _ _ _ => In value (txs E s sources)
  | TeHasFlag vars _ _ _ _ =>
      exists n, In n (match vars with [] => [default_flags] | _ => vars end) /\ In value (flags_of_var (E_L E) (get_variable (vw E s) n))
  | TeSpam percent _ _ _ _ => value = show_Z (if percent then spam_percentage (E_spam E) else spam_number (E_spam E))
  | TeVirus _ _ _ _ => value = show_Z (virus_number (E_virus E))
  | _ => False
  end.

(** Match variables [m'] are [m] with the captured texts. *)
Definition stored (set : list (nat * text)) (m m' : list var) : Prop :=
  length m' = length m /\
  (forall n t, In (n, t) set -> n < length m -> nth_error m' n = Some (VStr t)) /\
  (forall n, ~ In n (map fst set) -> nth_error m' n = nth_error m n).

(** *** How long they are kept *)
(** The match variables of the script at a depth of inclusion (1: the outermost). *)
Definition depth (s : rst) : nat := length (r_stack s).
Definition matches_at (d : nat) (s : rst) : option (list var) :=
  if Nat.eqb (depth s) d then Some (c_match (r_vars s))
  else option_map f_match (nth_error (r_stack s) (depth s - d - 1)).
Definition match_at (d n : nat) (s : rst) : option var :=
  match matches_at d s with Some m => nth_error m n | None => None end.
(** An instruction that may change match variable [n]. *)
Definition writes (n : nat) (i : instruction) : Prop :=
  match i with
  | IxTest t => N.testbit (wanted t) (N.of_nat n) = true
  | IxClear p _ _ => N.testbit p (N.of_nat n) = true
  | _ => False
  end.
(** Runs within the script at depth [d] and those it includes, in which that script executes
    no instruction that writes [n]: turns of the interpreter, answers of the host, events
    taken from the queue. *)
Inductive quiet (E : renv) (d n : nat) : rst -> rst -> Prop :=
| qt_refl : forall s, quiet E d n s s
| qt_step : forall s s1 s', d <= depth s -> d <= depth s1 ->
    (depth s = d -> forall i, next_instr s = Some i -> ~ writes n i) ->
    (step E s = SCont s1 \/ exists o, step E s = SYield s1 o) -> quiet E d n s1 s' -> quiet E d n s s'
| qt_answer : forall s i s', d <= depth s -> quiet E d n (feed i s) s' -> quiet E d n s s'
| qt_queue : forall s q s', d <= depth s -> quiet E d n (w_queue q s) s' -> quiet E d n s s'.
