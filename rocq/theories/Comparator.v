(** Model of src/runtime/tests/comparator.rs and of the 'string'/'environment',
    'metadata' and 'notify_method_capability' tests that are thin loops over it. *)
From Verif Require Import Base Lib Var Value Glob.
From Coq Require Import Floats.SpecFloat.

(** grammar/mod.rs 147-153 [Comparator] *)
Inductive comparator := CElbonia | COctet | CCasemap | CNumeric | COther.
(** grammar/mod.rs 129-136. grammar/mod.rs [RelationalMatch] *)
Inductive rel := RGt | RGe | RLt | RLe | REq | RNe.
(** grammar/mod.rs 110-118. grammar/mod.rs [MatchType] *)
Inductive mtype :=
| MIs | MContains | MMatches (positions : N) | MRegex (positions : N)
| MValue (r : rel) | MCount (r : rel) | MList.

(** comparator.rs 162-176 [RelationalMatch::cmp], for a type with equality
    [e] and partial order [c]. *)
Definition rel_cmp {A} (e : A -> A -> bool) (c : A -> A -> option comparison)
           (r : rel) (a b : A) : bool :=
  match r with
  | RGt => is_gt (c a b)
  | RGe => is_ge (c a b)
  | RLt => is_lt (c a b)
  | RLe => is_le (c a b)
  | REq => e a b
  | RNe => negb (e a b)
  end.
(** comparator.rs 162-176: at texts. *)
Definition rel_text := rel_cmp teqb (fun a b => Some (tcmp a b)).
(** comparator.rs 162-176: at numbers. *)
Definition rel_number := rel_cmp n_eqb n_cmp.

(** comparator.rs 20-23 [Comparable]: a variable or a plain text. *)
Inductive cmpv := KVar (v : var) | KStr (s : text).

Section C.
  Variable L : rustlib.
  (** fancy_regex: captures of a (possibly invalid) pattern on a text; [None] =
      invalid pattern, error or no match, otherwise the groups by number. *)
  Variable rx : text -> text -> option (list (option text)).

  (** comparator.rs 140-160 *)
  Definition k_text (k : cmpv) : text :=
    match k with KVar v => v_text L v | KStr s => s end.
  (** comparator.rs 140-160: [Comparable::to_number]. *)
  Definition k_number (k : cmpv) : number :=
    match k with
    | KVar v => v_number L v
    | KStr s => match f64_parse L s with Some f => NFloat f | None => NFloat f64_zero end
    end.

  (** comparator.rs 26-32 [is] *)
  Definition cmp_is (c : comparator) (a b : cmpv) : bool :=
    match c with
    | COctet => teqb (k_text a) (k_text b)
    | CNumeric => rel_number REq (k_number a) (k_number b)
    | _ => teqb (str_lower L (k_text a)) (str_lower L (k_text b))
    end.

  (** comparator.rs 34-40 [contains] *)
  Definition cmp_contains (c : comparator) (hay needle : text) : bool :=
    match needle with
    | [] => true
    | _ => match c with
           | COctet => tcontains hay needle
           | _ => tcontains (str_lower L hay) (str_lower L needle)
           end
    end.

  (** comparator.rs 42-53 [relational] *)
  Definition cmp_relational (c : comparator) (r : rel) (a b : cmpv) : bool :=
    match c with
    | COctet => rel_text r (k_text a) (k_text b)
    | CNumeric => rel_number r (k_number a) (k_number b)
    | _ => rel_text r (str_lower L (k_text a)) (str_lower L (k_text b))
    end.

  (** comparator.rs 55-106. Outcome of one comparison: truth and the captured values afterwards
      ([captured_values] is an in-out argument), or an arithmetic overflow in the wildcard matcher (see
      Glob.v). *)
  Inductive cres := CPanic | CRes (b : bool) (caps : list (nat * text)).

  (** comparator.rs 55-69 [matches] *)
  Definition cmp_glob (c : comparator) (value pattern : text) (positions : N)
             (caps : list (nat * text)) : cres :=
    let cm := match c with CCasemap => true | _ => false end in
    match cmp_matches (chr_is_upper L) (chr_lower L) (str_lower L) cm value pattern positions with
    | MFuel | MOverflow => CPanic
    | MRes b None => CRes b caps
    | MRes b (Some l) => CRes b l
    end.

  (** comparator.rs 126-133: the groups named by the bits of
      [capture_positions], highest first. *)
  Fixpoint regex_groups (fuel : nat) (positions : N) (groups : list (option text))
    : list (nat * text) :=
    match fuel with
    | 0 => []
    | S f =>
        if N.eqb positions 0 then []
        else let index := N.to_nat (N.log2 positions) in
             (match nth_error groups index with
              | Some (Some t) => [(index, t)]
              | _ => []
              end) ++ regex_groups f (N.lxor positions (N.shiftl 1 (N.of_nat index))) groups
    end.

  (** comparator.rs 71-106 [regex] and 117-138 [eval_regex].  Simplification:
      the lazily compiled regex and the pattern compiled on the spot are the
      same external function of the pattern text. *)
  Definition cmp_regex (pattern value : text) (positions : N)
             (caps : list (nat * text)) : cres :=
    match rx pattern value with
    | None => CRes false caps
    | Some groups => if N.eqb positions 0 then CRes true caps
                     else CRes true (regex_groups 64 positions groups)
    end.

  (** The dispatch on the match type common to all tests (for instance
      test_string.rs 66-89, test_metadata.rs 69-91). *)
  Definition compare1 (c : comparator) (m : mtype) (value key : cmpv)
             (caps : list (nat * text)) : cres :=
    match m with
    | MIs => CRes (cmp_is c value key) caps
    | MContains => CRes (cmp_contains c (k_text value) (k_text key)) caps
    | MValue r => CRes (cmp_relational c r value key) caps
    | MMatches p => cmp_glob c (k_text value) (k_text key) p caps
    | MRegex p => cmp_regex (k_text key) (k_text value) p caps
    | MCount _ | MList => CRes false caps
    end.

  (** Outcome of a test: [TestResult] (tests/mod.rs 32-36) together with the
      match variables it sets. *)
  Inductive tres :=
  | TPanic
  | TBool (b : bool) (set : list (nat * text))
  | TListContains (lists values : list text) (as_match : comparator).

  (** test_string.rs 64-95: the loop over the sources for one key. *)
  Fixpoint sources_loop (enull : bool) (c : comparator) (m : mtype) (key : var)
           (sources : list var) (result : bool) (caps : list (nat * text)) : cres :=
    match sources with
    | [] => CRes result caps
    | s :: rest =>
        if negb enull || negb (v_is_empty s) then
          match compare1 c m (KVar s) (KVar key) caps with
          | CPanic => CPanic
          | CRes true caps' => CRes true caps'            (* break *)
          | CRes false caps' => sources_loop enull c m key rest false caps'
          end
        else sources_loop enull c m key rest result caps
    end.

  (** test_string.rs 62-96: the loop over the keys (it has no break). *)
  Fixpoint keys_loop (enull : bool) (c : comparator) (m : mtype) (keys sources : list var)
           (result : bool) (caps : list (nat * text)) : cres :=
    match keys with
    | [] => CRes result caps
    | k :: rest =>
        match sources_loop enull c m k sources result caps with
        | CPanic => CPanic
        | CRes r caps' => keys_loop enull c m rest sources r caps'
        end
    end.

  (** test_string.rs 18-105 [TestString::exec]; [enull] is [empty_is_null]
      (false for 'string', true for 'environment': tests/mod.rs 47, 54).
      Sources and keys are passed already evaluated. *)
  Definition string_test (enull : bool) (c : comparator) (m : mtype) (is_not : bool)
             (sources keys : list var) : tres :=
    match m with
    | MCount r =>
        let n := Z.of_nat (length (filter (fun s => negb (v_is_empty s)) sources)) in
        let res := (negb enull || Z.ltb 0 n) &&
                   existsb (fun k => rel_number r (NInt n) (v_number L k)) keys in
        TBool (xorb res is_not) []
    | MList =>
        let values := fold_left (fun vs s =>
                        let t := v_text L s in
                        match t with
                        | [] => vs
                        | _ => if existsb (teqb t) vs then vs else vs ++ [t]
                        end) sources [] in
        match values with
        | [] => TBool (xorb false is_not) []
        | _ => TListContains (map (v_text L) keys) values c
        end
    | _ => match keys_loop enull c m keys sources false [] with
           | CPanic => TPanic
           | CRes r caps => TBool (xorb r is_not) caps
           end
    end.

  (** test_metadata.rs 67-96: the loop over the keys, which does break. *)
  Fixpoint first_key (c : comparator) (m : mtype) (value : cmpv) (keys : list var)
           (caps : list (nat * text)) : cres :=
    match keys with
    | [] => CRes false caps
    | k :: rest =>
        match compare1 c m value (KVar k) caps with
        | CPanic => CPanic
        | CRes true caps' => CRes true caps'
        | CRes false caps' => first_key c m value rest caps'
        end
    end.

  (** lib.rs 177-180. grammar [Metadata] of a host-provided annotation or of a test *)
  Inductive metadata := MdServer (annotation : text) | MdMailbox (name annotation : text).
  (** test_metadata.rs 35-50: comparison of annotation names. *)
  Definition md_eq (a b : metadata) : bool :=
    match a, b with
    | MdServer a, MdServer b => teqb_ic a b
    | MdMailbox a c, MdMailbox b d => teqb a b && teqb_ic c d
    | _, _ => false
    end.
  (** test_metadata.rs 21-104 [TestMetadata::exec]; [store] is the context's
      metadata followed by the runtime's. *)
  Definition metadata_test (store : list (metadata * text)) (wanted : metadata)
             (c : comparator) (m : mtype) (is_not : bool) (keys : list var) : tres :=
    match find (fun p => md_eq (fst p) wanted) store with
    | None => TBool (xorb false is_not) []
    | Some (_, value) =>
        match m with
        | MCount r =>
            TBool (xorb (existsb (fun k => rel_number r (NFloat (f64_of_Z 1)) (v_number L k)) keys)
                        is_not) []
        | _ => match first_key c m (KStr value) keys [] with
               | CPanic => TPanic
               | CRes r caps => TBool (xorb r is_not) caps
               end
        end
    end.

  (** test_metadata.rs 107-131 [TestMetadataExists::exec] *)
  Definition md_covers (mailbox : option text) (m : metadata) (a : text) : bool :=
    match m, mailbox with
    | MdServer an, None => teqb_ic a an
    | MdMailbox n an, Some mb => teqb n mb && teqb_ic a an
    | _, _ => false
    end.
  (** test_metadata.rs 108-131: the loop over the annotations. *)
  Fixpoint md_exists_loop (store : list (metadata * text)) (mailbox : option text)
           (annotations : list text) : bool :=
    match store with
    | [] => false
    | (m, _) :: rest =>
        match filter (fun a => negb (md_covers mailbox m a)) annotations with
        | [] => true
        | remaining => md_exists_loop rest mailbox remaining
        end
    end.
  (** test_metadata.rs 108-131 [TestMetadataExists::exec]. *)
  Definition metadata_exists_test (store : list (metadata * text)) (mailbox : option text)
             (annotations : list text) (is_not : bool) : bool :=
    xorb (md_exists_loop store mailbox annotations) is_not.
End C.
