(** Independent specification of the values the address, envelope and date tests
    look at. *)
From Verif Require Import Base Lib Var Value Message AddrTest.

Section S.
  Variable L : rustlib.
  Variable A : addrparser.

  (** The part [p] of the mailbox [a] is [v]: the display name for ':name', the
      whole address for ':all', otherwise what the address grammar says; a mailbox
      without an address is represented by its display name. *)
  Inductive part_is (p : apart) (a : mailaddr) (v : text) : Prop :=
  | pi_name : p = PName -> ad_name a = Some v -> part_is p a v
  | pi_all : p = PAll -> (ad_addr a = Some v \/ ad_addr a = None /\ ad_name a = Some v) -> part_is p a v
  | pi_empty : p <> PName -> v = [] -> (ad_addr a = Some [] \/ ad_addr a = None /\ ad_name a = Some []) -> part_is p a v
  | pi_sub : forall e, p <> PName -> p <> PAll -> e <> [] ->
      (ad_addr a = Some e \/ ad_addr a = None /\ ad_name a = Some e) -> ap_part A p e = Some v -> part_is p a v.
  (** [v] is one of the values of an address header: one per mailbox, groups
      included; the empty text when the header has no address syntax. *)
  Definition address_value (p : apart) (h : header) (v : text) : Prop :=
    (exists l a, ap_parse A h = Some l /\ In a l /\ part_is p a v) \/ (ap_parse A h = None /\ v = []).
  (** [v] is the value of the envelope item [name] with content [x]. *)
  Definition envelope_value (p : apart) (z : option Z) (name : envk) (x : text) (v : text) : Prop :=
    match name with
    | EnvFrom | EnvTo | EnvOrcpt =>
        (x = [] \/ p = PAll \/ p = PName) /\ v = x \/
        x <> [] /\ p <> PAll /\ p <> PName /\ ap_part A p x = Some v
    | EnvByTimeAbsolute =>
        match z with
        | None => v = x
        | Some tz => (exists d, dp_from_rfc3339 A x = Some d /\ v = dp_rfc3339 A (dp_timezone A tz d)) \/
                     (dp_from_rfc3339 A x = None /\ v = [])
        end
    | _ => v = x
    end.
End S.
