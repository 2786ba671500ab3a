(** Properties C01, C02: wildcard matching. *)
From Verif Require Import Base Glob GlobSpec GlobProofs.

(** C01. For every case-folding library (arbitrary [is_upper], [char_lower],
    [str_lower]), pattern, comparator mode and value: the comparison terminates
    and answers true exactly on the language of the pattern. *)
Theorem C01_matches_iff_language :
  forall is_upper char_lower str_lower pattern to_lower value,
    let fold := pfold is_upper char_lower to_lower in
    let v := if to_lower then str_lower value else value in
    let r := gmatches str_lower (compile is_upper char_lower pattern to_lower) to_lower value in
    (r = Some true <-> glob fold pattern v) /\ (r = Some false <-> ~ glob fold pattern v).
Proof. exact gmatches_exact. Qed.
Print Assumptions C01_matches_iff_language.

Example C01_example :
  gmatches (fun t => t) (compile is_upper_ascii (fun c => [lower_ascii c]) (lit "A*\*?z") false)
           false (lit "Abc*qz") = Some true.
Proof. vm_compute. reflexivity. Qed.

(** Finding: with a [str::to_lowercase] that maps a final capital sigma to the
    final form (as the Rust library does) and a per-character lower case that
    does not, a text need not match itself as a pattern under i;ascii-casemap. *)
Theorem C01_text_matches_itself_refuted :
  exists is_upper char_lower str_lower value,
    (* Greek capital alpha (913), capital sigma (931); lower 945, 963; final sigma 962 *)
    char_lower 931%N = [963%N] /\ char_lower 913%N = [945%N] /\
    str_lower [913%N; 931%N] = [945%N; 962%N] /\
    value = [913%N; 931%N] /\
    gmatches str_lower (compile is_upper char_lower value true) true value = Some false.
Proof.
  exists (fun c => N.eqb c 913 || N.eqb c 931),
         (fun c => if N.eqb c 913 then [945%N] else if N.eqb c 931 then [963%N] else [c]),
         (fun t => if teqb t [913%N; 931%N] then [945%N; 962%N] else t),
         [913%N; 931%N].
  vm_compute. repeat split.
Qed.
Print Assumptions C01_text_matches_itself_refuted.

(** C02. For every pattern with at most 63 wildcards and every value free of
    U+FFFD whose characters fold to single characters: a successful capturing
    comparison captures pieces that reconstruct the value ([globw]), numbered
    from 1 in pattern order and filtered by the requested positions, variable 0
    being the whole value; among all decompositions it is the shortest,
    leftmost first.  A failing one means that there is no decomposition. *)
Theorem C02_captures_reconstruct :
  forall is_upper char_lower, (forall c, char_lower c <> []) ->
  forall pattern to_lower (fold1 : ch -> ch) value positions,
    let fold := pfold is_upper char_lower to_lower in
    let V := map (fun c => (fold1 c, c)) value in
    (forall c, In c value -> fold c = [fold1 c] /\ c <> replacement_char) ->
    wildcards pattern <= 63 ->
    match gcapture is_upper char_lower (compile is_upper char_lower pattern to_lower)
                   to_lower value positions with
    | CapOk l => exists ws, globw fold pattern V ws /\
          l = numbered positions 0 (value :: map (map snd) ws) /\
          forall ws', globw fold pattern V ws' ->
            lexle (map (@List.length _) ws) (map (@List.length _) ws')
    | CapFalse => forall ws, ~ globw fold pattern V ws
    | CapOverflow | CapFuel => False
    end.
Proof. exact (fun iu cl => capture_exact iu cl (fun t => t)). Qed.
Print Assumptions C02_captures_reconstruct.

Example C02_example :
  gcapture is_upper_ascii (fun c => [lower_ascii c])
    (compile is_upper_ascii (fun c => [lower_ascii c]) (lit "?*frop*") true) true
    (lit "frop.......Frop.........frop....") 14 =
  CapOk [(1, lit "f"); (2, lit "rop......."); (3, lit ".........frop....")].
Proof. vm_compute. reflexivity. Qed.

(** C02, second half: with at most 63 wildcards, a capturing comparison answers
    like the non-capturing one, provided [str::to_lowercase] of the value is the
    per-character folding (the two code paths fold differently). *)
Theorem C02_capture_agrees_with_match :
  forall is_upper char_lower str_lower, (forall c, char_lower c <> []) ->
  forall pattern casemap value positions,
    wildcards pattern <= 63 ->
    (casemap = true -> str_lower value = flat_map (pfold is_upper char_lower true) value) ->
    exists b caps,
      cmp_matches is_upper char_lower str_lower casemap value pattern 0 = MRes b None /\
      cmp_matches is_upper char_lower str_lower casemap value pattern positions = MRes b caps.
Proof. exact capture_agrees. Qed.
Print Assumptions C02_capture_agrees_with_match.

(** Finding: without the restriction on U+FFFD the captured text need not
    reconstruct the value: U+FFFD is dropped from '*' captures. *)
Theorem C02_replacement_char_refuted :
  exists value, gcapture (fun _ => false) (fun c => [c])
                  (compile (fun _ => false) (fun c => [c]) (lit "*") false) false value 2
                = CapOk [(1, lit "ab")] /\ value <> lit "ab".
Proof. exists [97; 65533; 98]%N. split; [vm_compute; reflexivity|discriminate]. Qed.
Print Assumptions C02_replacement_char_refuted.

(** Finding: a run of 64 stars makes the capturing comparison shift by 64. *)
Theorem C02_many_stars_refuted :
  exists pattern value, gcapture (fun _ => false) (fun c => [c])
     (compile (fun _ => false) (fun c => [c]) pattern false) false value 2 = CapOverflow.
Proof. exists (repeat c_star 64), []. vm_compute. reflexivity. Qed.
Print Assumptions C02_many_stars_refuted.
