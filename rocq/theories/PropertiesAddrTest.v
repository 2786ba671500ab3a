(** Property C05 for the address, envelope, date and currentdate tests. *)
From Verif Require Import Base Lib Var Value Glob GlobSpec Comparator ComparatorSpec
  ComparatorProofs2 PropertiesCompare Message MessageSpec PropertiesMessage AddrTest AddrSpec AddrTestProofs.

(** The address test is true exactly when some address (or address part) of some
    selected header of a visited part matches some key; ':not' inverts it. *)
Theorem C05_address_any_value_any_key :
  forall L rx A, (forall c, chr_lower L c <> []) ->
  forall parts current names index anychild part c m is_not keys,
    well_formed parts -> current < length parts ->
    single_value_match m ->
    (forall k, In k keys -> few_wildcards L m (KVar k)) ->
    exists b set,
      address_test L rx A parts current names index anychild part c m is_not keys
        = Some (TBool (xorb b is_not) set) /\
      (b = true <-> exists i p name pos h v k,
         looked_at parts current anychild i p /\ In name names /\
         selected index name (p_headers p) pos h /\
         address_value A part h v /\ In k keys /\
         key_matches L rx c m (KStr v) (KVar k)).
Proof. exact address_test_exact. Qed.
Print Assumptions C05_address_any_value_any_key.

(** The envelope test: some value of some named envelope item matches some key. *)
Theorem C05_envelope_any_value_any_key :
  forall L rx A, (forall c, chr_lower L c <> []) ->
  forall env wanted part zone c m is_not keys,
    single_value_match m ->
    (forall k, In k keys -> few_wildcards L m (KVar k)) ->
    exists b set,
      envelope_test L rx A env wanted part zone c m is_not keys = TBool (xorb b is_not) set /\
      (b = true <-> exists name x v k,
         In (name, x) env /\ existsb (envk_eqb name) wanted = true /\
         envelope_value A part zone name (v_text L x) v /\ In k keys /\
         key_matches L rx c m (KStr v) (KVar k)).
Proof. exact envelope_test_exact. Qed.
Print Assumptions C05_envelope_any_value_any_key.

(** ':count' compares the number of non-empty values, ':list' asks the host about
    the distinct non-empty values, each once, or is false without asking when
    there is none.  [values] is what the two tests above range over. *)
Theorem C05_address_envelope_count :
  forall L rx c r is_not values keys,
    values_test L rx c (MCount r) is_not values keys =
    TBool (xorb (existsb (fun k =>
             rel_number r (NInt (Z.of_nat (length (filter (fun v => negb (teqb v [])) values)))) (v_number L k)) keys)
           is_not) [].
Proof. exact values_count. Qed.
Print Assumptions C05_address_envelope_count.

Theorem C05_address_envelope_list :
  forall L rx c is_not values keys,
    (values_test L rx c MList is_not values keys = TBool is_not [] /\ (forall v, In v values -> v = [])) \/
    exists l, values_test L rx c MList is_not values keys = TListContains (map (v_text L) keys) l c /\
      NoDup l /\ (forall v, In v l <-> In v values /\ v <> []) /\ l <> [].
Proof. exact values_list. Qed.
Print Assumptions C05_address_envelope_list.

(** The date test: some selected header holds a date whose requested part, in the
    requested zone, matches a key.  ':regex' is treated as ':matches' here (see
    [C05_date_regex_refuted]). *)
Theorem C05_date_any_value_any_key :
  forall L rx A, (forall c, chr_lower L c <> []) ->
  forall parts current name index anychild part zone c m is_not keys,
    well_formed parts -> current < length parts -> single_value_match m ->
    (forall k, In k keys -> few_wildcards L (as_glob m) (KVar k)) ->
    exists b set,
      date_test L rx A parts current (Some name) index anychild part zone c m is_not keys
        = Some (TBool (xorb b is_not) set) /\
      (b = true <-> exists i p pos h d k,
         looked_at parts current anychild i p /\ selected index name (p_headers p) pos h /\
         dp_parse A h = Some d /\ In k keys /\
         key_matches L rx c (as_glob m) (KStr (date_part A part (zone_eval A zone d))) (KVar k)).
Proof. exact date_test_exact. Qed.
Print Assumptions C05_date_any_value_any_key.

Theorem C05_currentdate_any_key :
  forall L rx A, (forall c, chr_lower L c <> []) ->
  forall now part c m is_not keys,
    single_value_match m ->
    (forall k, In k keys -> few_wildcards L (as_glob m) (KVar k)) ->
    exists b set,
      currentdate_test L rx A now part c m is_not keys = TBool (xorb b is_not) set /\
      (b = true <-> exists k, In k keys /\ key_matches L rx c (as_glob m) (KStr (date_part A part now)) (KVar k)).
Proof. exact currentdate_test_exact. Qed.
Print Assumptions C05_currentdate_any_key.

(** Examples.  A toy address parser with
    two fixed mailboxes. *)
Definition toy_dt : datetime :=
  {| dt_year := 2024; dt_month := 3; dt_day := 9; dt_hour := 7; dt_minute := 5; dt_second := 0;
     dt_before_gmt := true; dt_tz_hour := 3; dt_tz_minute := 30 |}.
Definition toy_ap : addrparser :=
  {| ap_parse := fun h => if hn_eqb (h_name h) (lit "To")
                          then Some [ {| ad_name := Some (lit "Ann"); ad_addr := Some (lit "a@x.org") |};
                                      {| ad_name := Some (lit "Bob"); ad_addr := None |} ] else None;
     ap_part := fun p t => match p with
                           | PDomain => Some (skipn 2 t)
                           | PLocal => Some (firstn 1 t)
                           | _ => None end;
     dp_parse := fun h => if hn_eqb (h_name h) (lit "Date") then Some toy_dt else None;
     dp_timezone := fun _ d => d; dp_local := fun d => d;
     dp_rfc3339 := fun _ => lit "2024-03-09T07:05:00-03:30"; dp_rfc822 := fun _ => [];
     dp_jdn := fun _ => 2460379%Z; dp_weekday := fun _ => 6%N;
     dp_from_rfc3339 := fun _ => None |}.
Definition addr_msg : list part :=
  [Part [hd "To" "Ann <a@x.org>, Bob"; hd "Date" "Sat, 9 Mar 2024"] None (BText (lit "x"))].

Example C05_address_example :
  address_test ascii_lib no_rx toy_ap addr_msg 0 [lit "Cc"; lit "to"] None false PDomain CCasemap MIs false
    [VStr (lit "X.ORG")] = Some (TBool true []) /\
  address_test ascii_lib no_rx toy_ap addr_msg 0 [lit "to"] None false PAll CCasemap MIs true
    [VStr (lit "x.org"); VStr (lit "bob")] = Some (TBool false []) /\
  address_test ascii_lib no_rx toy_ap addr_msg 0 [lit "to"] None false PAll CCasemap (MCount REq) false
    [VInt 2] = Some (TBool true []) /\
  well_formed addr_msg /\ 0 < length addr_msg.
Proof.
  split; [vm_compute; reflexivity|]. split; [vm_compute; reflexivity|]. split; [vm_compute; reflexivity|].
  split; [apply single_wf; reflexivity|simpl; lia].
Qed.
Example C05_envelope_example :
  envelope_test ascii_lib no_rx toy_ap [(EnvFrom, VStr (lit "u@d.org")); (EnvTo, VStr (lit "v@e.org"))]
    [EnvTo] PDomain None CCasemap MIs false [VStr (lit "d.org"); VStr (lit "e.org")] = TBool true [] /\
  envelope_test ascii_lib no_rx toy_ap [(EnvFrom, VStr (lit "u@d.org")); (EnvTo, VStr (lit "v@e.org"))]
    [EnvTo] PDomain None CCasemap MIs false [VStr (lit "d.org")] = TBool false [] /\
  envelope_test ascii_lib no_rx toy_ap [(EnvFrom, VStr (lit "u@d.org")); (EnvTo, VStr (lit "v@d.org")); (EnvTo, VStr [])]
    [EnvTo; EnvFrom] PDomain None CCasemap MList true [VStr (lit ":addrbook:")]
    = TListContains [lit ":addrbook:"] [lit "d.org"] CCasemap.
Proof. vm_compute. auto. Qed.
Example C05_date_example :
  date_test ascii_lib no_rx toy_ap addr_msg 0 (Some (lit "date")) None false DTime ZOriginal CCasemap MIs false
    [VStr (lit "07:05:00")] = Some (TBool true []) /\
  date_test ascii_lib no_rx toy_ap addr_msg 0 (Some (lit "date")) None false DZone ZOriginal CCasemap MIs false
    [VStr (lit "-0330")] = Some (TBool true []) /\
  date_test ascii_lib no_rx toy_ap addr_msg 0 (Some (lit "date")) None false DDate ZOriginal CCasemap (MMatches 2) false
    [VStr (lit "2024-*")] = Some (TBool true [(1, lit "03-09")]).
Proof. vm_compute. auto. Qed.

(** Finding: with ':regex' the date tests do not use regular expressions at all.
    Whatever the regex engine says, the key ".*" (which matches every text) is not
    found in a date, because it is compared as a wildcard pattern. *)
Theorem C05_date_regex_refuted :
  exists A now part key,
    forall rx, (forall t, rx key t = Some [Some t]) ->
      currentdate_test ascii_lib rx A now part CCasemap (MRegex 0) false [VStr key] = TBool false [] /\
      key_matches ascii_lib rx CCasemap (MRegex 0) (KStr (date_part A part now)) (KVar (VStr key)).
Proof.
  exists toy_ap, toy_dt, DYear, (lit ".*"). intros rx H. split; [vm_compute; reflexivity|].
  cbn [key_matches k_text v_text]. rewrite H. discriminate.
Qed.
Print Assumptions C05_date_regex_refuted.
