(** Specification of header variables (C80): how a reference is written and what it
    selects. *)
From Verif Require Import Base Lib Var Value Message AddrTest Build HeaderVar.
Import ListNotations.
Local Open Scope list_scope.

(** A reference ${header.N1:N2[i].part[j]}: header fields of these names, or of all names
    ("*"); the i-th such field, and the j-th of its values.  An index is a number, "*" for
    all, or missing. *)
Inductive index := IxNone | IxAll | IxAt (z : Z).
Record reference := { rf_names : option (list text); rf_hdr : index; rf_part : option text; rf_idx : index }.

Definition index_text (i : index) : text :=
  match i with IxNone => [] | IxAll => lit "[*]" | IxAt z => lit "[" ++ show_Z z ++ lit "]" end.
Fixpoint joined (l : list text) : text :=
  match l with [] => [] | [n] => n | n :: l' => n ++ lit ":" ++ joined l' end.
Definition reference_text (r : reference) : text :=
  match rf_names r with Some l => joined l | None => lit "*" end ++
  index_text (rf_hdr r) ++
  match rf_part r with Some p => lit "." ++ p | None => [] end ++
  index_text (rf_idx r).

Definition index_ok (i : index) : Prop := match i with IxAt z => (-2147483648 <= z <= 2147483647)%Z | _ => True end.
Definition name_ok (n : text) : Prop := n <> [] /\ Forall (fun c => ~ In c (lit "[.:* ") /\ c <> 9%N /\ c <> 13%N /\ c <> 10%N) n.
Definition reference_ok (r : reference) : Prop :=
  match rf_names r with Some l => l <> [] /\ Forall name_ok l | None => True end /\
  index_ok (rf_hdr r) /\ index_ok (rf_idx r) /\
  match rf_part r with
  | Some p => p <> [] /\ Forall (fun c => ~ In c (lit "[ ") /\ c <> 9%N /\ c <> 13%N /\ c <> 10%N) p
  | None => rf_hdr r = IxNone -> rf_idx r = IxNone
  end.

(** The index it stands for: 0 is all, negative counts from the end.  A missing index is
    the last one, and all for the name "*"; 0 is the first one. *)
Definition index_value (any : bool) (i : index) : Z :=
  match i with
  | IxNone => if any then 0 else -1
  | IxAll => 0
  | IxAt z => if Z.eqb z 0 then 1 else z
  end%Z.

(** What an index selects from a list. *)
Definition chosen {X} (i : Z) (l l' : list X) : Prop :=
  (i = 0%Z /\ l' = l) \/
  (exists a x b, l = a ++ x :: b /\ l' = [x] /\
     ((0 < i /\ Z.of_nat (length a) = i - 1) \/ (i < 0 /\ Z.of_nat (length b) = - i - 1))%Z) \/
  (i <> 0%Z /\ (Z.of_nat (length l) < Z.abs i)%Z /\ l' = []).
(** The fields of a part with one of the names. *)
Definition fields_named (names : list text) (hs : list fheader) : list fheader :=
  filter (fun h => existsb (teqb_ic (h_name (fh_view h))) names) hs.
(** One value is a text if both indices select one; otherwise the values are an array. *)
Definition as_value (v : hdrvar) (l : list var) : option var :=
  match l with
  | [] => None
  | [x] => Some (if negb (Z.eqb (hv_hdr v) 0) && negb (Z.eqb (hv_idx v) 0) then x else VArr [x])
  | _ => Some (VArr l)
  end.
(** The values of one header field: of those in it the one with the index, or the empty
    text if it has none. *)
Definition one_of (i : Z) (values out : list var) : Prop :=
  exists sel, chosen i values sel /\ out = match sel with [] => if Z.eqb i 0 then [] else [VStr []] | _ => sel end.
Definition text_or_empty (t : option text) : var := VStr (match t with Some t => t | None => [] end).
(** The names of the parts of a header field. *)
Definition part_names : list (text * hpart) :=
  [(lit "text", HpText); (lit "name", HpAddress PName); (lit "addr", HpAddress PAll); (lit "addr.all", HpAddress PAll);
   (lit "addr.name", HpAddress PName); (lit "addr.addr", HpAddress PAll);
   (lit "addr.addr.domain", HpAddress PDomain); (lit "addr.addr.local", HpAddress PLocal);
   (lit "addr.addr.user", HpAddress PUser); (lit "addr.addr.detail", HpAddress PDetail);
   (lit "type", HpContentType CpType); (lit "subtype", HpContentType CpSubtype);
   (lit "rcvd", HpText); (lit "rcvd.from", HpReceived (RpFrom RhAny)); (lit "rcvd.from.name", HpReceived (RpFrom RhName));
   (lit "rcvd.from.ip", HpReceived (RpFrom RhIp)); (lit "rcvd.ip", HpReceived RpFromIp); (lit "rcvd.iprev", HpReceived RpFromIpRev);
   (lit "rcvd.by", HpReceived (RpBy RhAny)); (lit "rcvd.by.name", HpReceived (RpBy RhName)); (lit "rcvd.by.ip", HpReceived (RpBy RhIp));
   (lit "rcvd.for", HpReceived RpFor); (lit "rcvd.with", HpReceived RpWith); (lit "rcvd.tls", HpReceived RpTlsVersion);
   (lit "rcvd.cipher", HpReceived RpTlsCipher); (lit "rcvd.id", HpReceived RpId); (lit "rcvd.ident", HpReceived RpIdent);
   (lit "rcvd.date", HpReceived RpDate); (lit "rcvd.date.raw", HpReceived RpDateRaw);
   (lit "id", HpId); (lit "raw", HpRaw); (lit "raw_name", HpRawName); (lit "date", HpDate); (lit "exists", HpExists)].
Inductive part_named : option text -> hpart -> Prop :=
| pn_none : part_named None HpText
| pn_name : forall n p, In (n, p) part_names -> part_named (Some n) p
| pn_attr : forall n, n <> [] -> part_named (Some (lit "attr." ++ n)) (HpContentType (CpAttribute n)).

(** How a mailbox is shown, and the parts of one; [split] takes local part, domain, user and
    detail from an address. *)
Definition shown (a : mailaddr) : var :=
  VStr (match ad_name a, ad_addr a with
        | Some n, Some e => n ++ lit " <" ++ e ++ lit ">"
        | None, Some e => lit "<" ++ e ++ lit ">"
        | Some n, None => n
        | None, None => []
        end).
Definition mailbox_part (split : apart -> text -> option text) (p : apart) (a : mailaddr) : var :=
  match p with
  | PAll => text_or_empty (ad_addr a)
  | PName => text_or_empty (ad_name a)
  | _ => match ad_addr a with
         | Some (c :: e) => text_or_empty (split p (c :: e))
         | _ => VStr []
         end
  end.
(** Each run of blanks is one space; blanks at the end are dropped. *)
Definition blank_byte (c : N) : Prop := In c [32; 9; 10; 12; 13]%N.
Inductive squeezed : list N -> list N -> Prop :=
| sq_end : forall w, Forall blank_byte w -> squeezed w []
| sq_char : forall c b b', ~ blank_byte c -> squeezed b b' -> squeezed (c :: b) (c :: b')
| sq_run : forall w c b b', w <> [] -> Forall blank_byte w -> ~ blank_byte c -> squeezed b b' -> squeezed (w ++ c :: b) (32%N :: c :: b').
(** The bytes of the value of a field, and of its name, in the message. *)
Definition value_bytes (raw : list N) (h : fheader) (b : list N) : Prop :=
  exists x y, raw = x ++ b ++ y /\ length x = fh_start h /\ length (x ++ b) = fh_end h.
Definition name_bytes (raw : list N) (h : fheader) (b : list N) : Prop :=
  exists x y, raw = x ++ b ++ y /\ length x = fh_field h /\ length (x ++ b) + 1 = fh_start h.
(** The first of the attributes with the name. *)
Definition attribute (l : list (text * text)) (n : text) (v : text) : Prop :=
  (exists a n' b, l = a ++ (n', v) :: b /\ teqb_ic n' n = true /\ Forall (fun x => teqb_ic (fst x) n = false) a) \/
  (v = [] /\ Forall (fun x => teqb_ic (fst x) n = false) l).
