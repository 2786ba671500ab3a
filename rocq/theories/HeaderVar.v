(** Model of header variables: src/compiler/lexer/string.rs 345-471, 536-630. *)
From Verif Require Import Base Lib Value Message Lexer.
Import ListNotations.
Local Open Scope list_scope.

(** [str::split_once('.')] with the whole text and "" otherwise (line 540) *)
Fixpoint at_dot (s : text) : text * text :=
  match s with
  | [] => ([], [])
  | c :: s' => if N.eqb c 46 then ([], s') else let (a, b) := at_dot s' in (c :: a, b)
  end.
(** string.rs 616-630 [AddressPart::try_from] *)
Definition address_part (s : text) : option apart :=
  if teqb s (lit "name") then Some PName
  else if teqb s (lit "addr") || teqb s (lit "all") then Some PAll
  else if teqb s (lit "addr.domain") then Some PDomain
  else if teqb s (lit "addr.local") then Some PLocal
  else if teqb s (lit "addr.user") then Some PUser
  else if teqb s (lit "addr.detail") then Some PDetail
  else None.
(** string.rs 589-614 [ReceivedPart::try_from] *)
Definition received_part (s : text) : option rpart :=
  if teqb s (lit "from") then Some (RpFrom RhAny)
  else if teqb s (lit "from.name") then Some (RpFrom RhName)
  else if teqb s (lit "from.ip") then Some (RpFrom RhIp)
  else if teqb s (lit "ip") then Some RpFromIp
  else if teqb s (lit "iprev") then Some RpFromIpRev
  else if teqb s (lit "by") then Some (RpBy RhAny)
  else if teqb s (lit "by.name") then Some (RpBy RhName)
  else if teqb s (lit "by.ip") then Some (RpBy RhIp)
  else if teqb s (lit "for") then Some RpFor
  else if teqb s (lit "with") then Some RpWith
  else if teqb s (lit "tls") then Some RpTlsVersion
  else if teqb s (lit "cipher") then Some RpTlsCipher
  else if teqb s (lit "id") then Some RpId
  else if teqb s (lit "ident") then Some RpIdent
  else if teqb s (lit "date") then Some RpDate
  else if teqb s (lit "date.raw") then Some RpDateRaw
  else None.
(** string.rs 536-587 [HeaderPart::try_from] *)
Definition header_part (s : text) : option hpart :=
  let (v, sub) := at_dot s in
  if teqb v [] || teqb v (lit "text") then Some HpText
  else if teqb v (lit "name") then Some (HpAddress PName)
  else if teqb v (lit "addr") then
    if is_nil sub then Some (HpAddress PAll) else option_map HpAddress (address_part sub)
  else if teqb v (lit "type") then Some (HpContentType CpType)
  else if teqb v (lit "subtype") then Some (HpContentType CpSubtype)
  else if teqb v (lit "attr") && negb (is_nil sub) then Some (HpContentType (CpAttribute sub))
  else if teqb v (lit "rcvd") then
    if is_nil sub then Some HpText else option_map HpReceived (received_part sub)
  else if teqb v (lit "id") then Some HpId
  else if teqb v (lit "raw") then Some HpRaw
  else if teqb v (lit "raw_name") then Some HpRawName
  else if teqb v (lit "date") then Some HpDate
  else if teqb v (lit "exists") then Some HpExists
  else None.

(** string.rs 448-450 (Rust core library): [str::parse::<i32>] *)
Definition parse_i32 (s : text) : option Z :=
  match parse_i64 s with
  | Some z => if Z.leb (-2147483648) z && Z.leb z 2147483647 then Some z else None
  | None => None
  end.

(** string.rs 347-352: the state of the loop. *)
Inductive hstate := HName | HIndex | HPart | HPartIndex.
(** string.rs 353-360: the local variables of the loop. *)
Record hloop := {
  hl_state : hstate;
  hl_names : list text;
  hl_named : bool;         (* has_name *)
  hl_wild : bool;          (* has_wildcard *)
  hl_name : text;          (* hdr_name *)
  hl_hdr : text;           (* hdr_index *)
  hl_part : text;
  hl_idx : text            (* part_index *)
}.
(** string.rs 353-360: their initial values. *)
Definition hl0 : hloop :=
  {| hl_state := HName; hl_names := []; hl_named := false; hl_wild := false; hl_name := []; hl_hdr := []; hl_part := []; hl_idx := [] |}.
(** string.rs 362-425: the white space that is skipped. *)
Definition h_blank (c : ch) : bool := N.eqb c 32 || N.eqb c 9 || N.eqb c 13 || N.eqb c 10.

Section P.
  (** HeaderName::parse *)
  Variable hn : text -> option text.

  (** string.rs 363-424: one character; [None] is an error. *)
  Definition hstep (c : ch) (l : hloop) : option hloop :=
    let to st named := {| hl_state := st; hl_names := hl_names l; hl_named := named; hl_wild := hl_wild l; hl_name := hl_name l;
                          hl_hdr := hl_hdr l; hl_part := hl_part l; hl_idx := hl_idx l |} in
    let push n h p i := {| hl_state := hl_state l; hl_names := hl_names l; hl_named := hl_named l; hl_wild := hl_wild l;
                           hl_name := hl_name l ++ n; hl_hdr := hl_hdr l ++ h; hl_part := hl_part l ++ p; hl_idx := hl_idx l ++ i |} in
    match hl_state l with
    | HName =>
        if N.eqb c 91 then
          if is_nil (hl_hdr l) then Some (to HIndex true)
          else if is_nil (hl_part l) then Some (to HPartIndex true)
          else None
        else if N.eqb c 46 then Some (to HPart true)
        else if h_blank c then Some l
        else if N.eqb c 42 && negb (hl_wild l) && is_nil (hl_name l) && is_nil (hl_names l) then
          Some {| hl_state := HName; hl_names := hl_names l; hl_named := hl_named l; hl_wild := true; hl_name := hl_name l;
                  hl_hdr := hl_hdr l; hl_part := hl_part l; hl_idx := hl_idx l |}
        else if N.eqb c 58 && negb (is_nil (hl_name l)) && negb (hl_wild l) then
          match hn (hl_name l) with
          | Some n => Some {| hl_state := HName; hl_names := hl_names l ++ [n]; hl_named := hl_named l; hl_wild := hl_wild l;
                              hl_name := []; hl_hdr := hl_hdr l; hl_part := hl_part l; hl_idx := hl_idx l |}
          | None => None
          end
        else if negb (hl_named l) && negb (hl_wild l) then Some (push [c] [] [] [])
        else None
    | HIndex => if N.eqb c 93 then Some (to HName (hl_named l)) else if h_blank c then Some l else Some (push [] [c] [] [])
    | HPart => if N.eqb c 91 then Some (to HPartIndex (hl_named l)) else if h_blank c then Some l else Some (push [] [] [c] [])
    | HPartIndex => if N.eqb c 93 then Some (to HName (hl_named l)) else if h_blank c then Some l else Some (push [] [] [] [c])
    end.
  (** string.rs 362-425: the loop. *)
  Fixpoint hrun (s : text) (l : hloop) : option hloop :=
    match s with
    | [] => Some l
    | c :: s' => match hstep c l with Some l' => hrun s' l' | None => None end
    end.

  (** string.rs 439-466 *)
  Definition hindex (wild : bool) (s : text) : option Z :=
    match s with
    | [] => Some (if wild then 0 else -1)%Z
    | _ => if teqb s (lit "*") then Some 0%Z
           else option_map (fun z => if Z.eqb z 0 then 1%Z else z) (parse_i32 s)
    end.
  (** string.rs 427-470 *)
  Definition hfinish (l : hloop) : option hdrvar :=
    match (if is_nil (hl_name l) then Some (hl_names l)
           else option_map (fun n => hl_names l ++ [n]) (hn (hl_name l))) with
    | None => None
    | Some names =>
        if negb (is_nil names) || hl_wild l then
          match header_part (hl_part l), hindex (hl_wild l) (hl_hdr l), hindex (hl_wild l) (hl_idx l) with
          | Some p, Some i, Some j => Some {| hv_name := names; hv_part := p; hv_hdr := i; hv_idx := j |}
          | _, _, _ => None
          end
        else None
    end.
  (** string.rs 345-471 [parse_header_variable] *)
  Definition parse_header_variable (s : text) : option hdrvar :=
    match hrun s hl0 with Some l => hfinish l | None => None end.
End P.
(** string.rs 314-316, 435: [VariableType::Header]. *)
Definition header_variable (M : mailparser) (s : text) : option msgvar := option_map MvHeader (parse_header_variable (hn_parse M) s).
