(** Specification: what ':count' counts. *)
From Verif Require Import Base Lib Var Value SetVar Flags Comparator Message MessageSpec EditHeader AddrTest AddrSpec Spam Notify Event Sieve Run TestSpec.
Import ListNotations.
Local Open Scope list_scope.

(** There are [n] things with the property [P]. *)
Definition how_many {X} (P : X -> Prop) (n : nat) : Prop :=
  exists l, NoDup l /\ (forall x, In x l <-> P x) /\ length l = n.

(** What is counted in one header field: the field, its content type, its parameters of the given names. *)
Definition header_item (o : mimeopts) (h : header) (k : nat) : Prop :=
  match o with
  | MoNone => k = 0
  | MoType | MoSubtype | MoContentType => (exists ct, h_val h = HContentType ct) /\ k = 0
  | MoParam ps => exists ct attrs a q, h_val h = HContentType ct /\ ct_attrs ct = Some attrs /\ nth_error attrs k = Some a /\
      In q ps /\ lower_text (fst a) = lower_text q
  end.
(** A field of the part [i], asked for by the [j]-th name, at position [pos]. *)
Definition field_item (E : renv) (s : rst) (names : list value) (index : option Z) (anychild : bool) (i j pos : nat) (h : header) : Prop :=
  exists p x n, looked_at (parts s) (r_part s) anychild i p /\ nth_error names j = Some x /\ hn_parse (E_M E) (tx E s x) = Some n /\
    selected index n (p_headers p) pos h.

(** The things a test counts, named by where they are. *)
Inductive counted (E : renv) (s : rst) : test -> list nat -> Prop :=
| co_header names index anychild o o' c m keys neg i j pos k h :
    field_item E s names index anychild i j pos h -> options_are E s o o' -> header_item o' h k ->
    counted E s (TeHeader names index anychild o c m keys neg) [i; j; pos; k]
| co_address names index anychild p c m keys neg i j pos k h l a v :
    field_item E s names index anychild i j pos h -> ap_parse (E_A E) h = Some l -> nth_error l k = Some a ->
    part_is (E_A E) p a v -> v <> [] ->
    counted E s (TeAddress names index anychild p c m keys neg) [i; j; pos; k]
| co_envelope wanted p z c m keys neg k name x v :
    nth_error (c_envelope (r_vars s)) k = Some (name, x) -> In name wanted -> envelope_value (E_A E) p z name (v_text (E_L E) x) v -> v <> [] ->
    counted E s (TeEnvelope wanted p z c m keys neg) [k]
| co_date name index anychild p z c m keys neg i pos h d :
    field_item E s [name] index anychild i 0 pos h -> dp_parse (E_A E) h = Some d ->
    counted E s (TeDate name index anychild p z c m keys neg) [i; pos]
| co_string sources c m keys neg k x :
    nth_error sources k = Some x -> v_is_empty (ev E s x) = false -> counted E s (TeString sources c m keys neg) [k]
| co_environment sources c m keys neg k x :
    nth_error sources k = Some x -> v_is_empty (ev E s x) = false -> counted E s (TeEnvironment sources c m keys neg) [k]
| co_flag vars flags c m neg j n k v :
    nth_error (match vars with [] => [default_flags] | _ => vars end) j = Some n ->
    nth_error (flags_of_var (E_L E) (get_variable (vw E s) n)) k = Some v ->
    counted E s (TeHasFlag vars flags c m neg) [j; k]
| co_body bt subject c m keys neg types path p :
    (match bt with BtContent l => types_are E s l types | _ => types = [] end) ->
    deep_at (parts s) (r_part s) path p -> passes types p = true ->
    counted E s (TeBody bt subject c m keys neg) path.

(** The count of a test.  A date test whose field name is no name, a body test with a wrong type and an environment
    test without a value have none, and do not hold whatever the key is. *)
Inductive counts (E : renv) (s : rst) : test -> number -> Prop :=
| cn_items t n :
    match t with
    | TeHeader _ _ _ _ _ _ _ _ | TeAddress _ _ _ _ _ _ _ _ | TeEnvelope _ _ _ _ _ _ _ | TeString _ _ _ _ _ | TeHasFlag _ _ _ _ _ => True
    | TeDate name _ _ _ _ _ _ _ _ => hn_parse (E_M E) (tx E s name) <> None
    | TeEnvironment _ _ _ _ _ => 0 < n
    | TeBody (BtContent l) _ _ _ _ _ => exists types, types_are E s l types
    | TeBody _ _ _ _ _ _ => True
    | _ => False
    end -> how_many (counted E s t) n -> counts E s t (NInt (Z.of_nat n))
| cn_now z p c m keys neg : counts E s (TeCurrentDate z p c m keys neg) (NFloat (f64_of_Z 1))
| cn_metadata md c m keys neg v : stored_value E s md v -> counts E s (TeMetadata md c m keys neg) (NFloat (f64_of_Z 1))
| cn_online uri cap c m keys neg :
    lower_text (tx E s cap) = lit "online" -> method_allowed E (tx E s uri) ->
    counts E s (TeNotifyCapability uri cap c m keys neg) (NFloat (f64_of_Z 1))
| cn_spam percent c m key neg :
    counts E s (TeSpam percent c m key neg) (NFloat (match E_spam E with SpUnknown => f64_zero | _ => f64_1_1 end))
| cn_virus c m key neg : counts E s (TeVirus c m key neg) (NFloat (match E_virus E with ViUnknown => f64_zero | _ => f64_1_1 end)).

(** The keys the count is compared with. *)
Definition count_keys (t : test) : list value :=
  match t with
  | TeHeader _ _ _ _ _ _ k _ | TeAddress _ _ _ _ _ _ k _ | TeEnvelope _ _ _ _ _ k _ | TeDate _ _ _ _ _ _ _ k _
  | TeCurrentDate _ _ _ _ k _ | TeMetadata _ _ _ k _ | TeNotifyCapability _ _ _ _ k _ | TeBody _ _ _ _ k _
  | TeString _ _ _ k _ | TeEnvironment _ _ _ k _ | TeHasFlag _ k _ _ _ => k
  | TeSpam _ _ _ k _ | TeVirus _ _ k _ => [k]
  | _ => []
  end.
(** The count stands in the relation [r] to some key. *)
Definition count_holds (E : renv) (s : rst) (t : test) (r : rel) : Prop :=
  exists n k, counts E s t n /\ In k (count_keys t) /\ rel_number r n (v_number (E_L E) (ev E s k)) = true.
