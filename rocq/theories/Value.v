(** Model of value evaluation: src/runtime/eval.rs 26-125, 193-204, and of the
    match variables, src/runtime/variables.rs. *)
From Verif Require Import Base Lib Var.

(** lib.rs 155-166. lib.rs [Envelope] (the kinds of envelope item; only identity matters). *)
Inductive envk := EnvFrom | EnvTo | EnvByTimeAbsolute | EnvByTimeRelative | EnvByMode | EnvByTrace
                | EnvNotify | EnvOrcpt | EnvRet | EnvEnvid.
(** lib.rs 146-166: the derived [PartialEq] of [Envelope]. *)
Definition envk_eq_dec (a b : envk) : {a = b} + {a <> b}.
Proof. decide equality. Defined.
(** lib.rs 146-166: the derived [PartialEq] of [Envelope], decided. *)
Definition envk_eqb (a b : envk) : bool := if envk_eq_dec a b then true else false.

(** compiler/grammar/mod.rs 92-99 [AddressPart] *)
Inductive apart := PLocal | PDomain | PAll | PUser | PDetail | PName.
(** compiler/mod.rs 227-231 [ContentTypePart] *)
Inductive ctpart := CpType | CpSubtype | CpAttribute (name : text).
(** compiler/mod.rs 242-271 [ReceivedPart], [ReceivedHostname] *)
Inductive rhost := RhName | RhIp | RhAny.
(** compiler/mod.rs 242-256 [ReceivedPart]. *)
Inductive rpart := RpFrom (h : rhost) | RpFromIp | RpFromIpRev | RpBy (h : rhost) | RpFor | RpWith | RpTlsVersion | RpTlsCipher
                 | RpId | RpIdent | RpVia | RpDate | RpDateRaw.
(** compiler/mod.rs 206-216 [HeaderPart] *)
Inductive hpart := HpText | HpDate | HpId | HpAddress (p : apart) | HpContentType (p : ctpart) | HpReceived (p : rpart)
                 | HpRaw | HpRawName | HpExists.
(** compiler/mod.rs 174-179 [HeaderVariable]; the indices are i32 *)
Record hdrvar := { hv_name : list text; hv_part : hpart; hv_hdr : Z; hv_idx : Z }.
(** compiler/mod.rs 190-195 [MessagePart], and header variables *)
Inductive msgvar :=
| MvHeader (h : hdrvar)
| MvTextBody (convert : bool)
| MvHtmlBody (convert : bool)
| MvContents
| MvRaw.

(** compiler/mod.rs 141-149 [VariableType]; [TMessage] is [Header] and [Part]. *)
Inductive vartype :=
| TLocal (id : nat)
| TMatch (n : nat)
| TGlobal (name : text)
| TEnvironment (name : text)
| TEnvelope (e : envk)
| TMessage (m : msgvar).

(** compiler/mod.rs 105-111 [Value] *)
Inductive value :=
| XText (t : text)
| XNumber (n : number)
| XVariable (v : vartype)
| XRegex (expr : text)
| XList (l : list value).

(** lib.rs 97-138. The part of [Context] (lib.rs) that value evaluation reads. *)
Record vctx := {
  c_local : list var;                    (* vars_local *)
  c_match : list var;                    (* vars_match *)
  c_global : list (text * var);          (* vars_global (hash map) *)
  c_env : list (text * var);             (* vars_env *)
  c_rtenv : list (text * var);           (* runtime.environment *)
  c_envelope : list (envk * var);        (* envelope *)
  c_message : msgvar -> option var          (* header and part variables *)
}.

(** Rust core. Hash map lookup and insertion. *)
Fixpoint alookup (k : text) (l : list (text * var)) : option var :=
  match l with
  | [] => None
  | (k', v) :: l' => if teqb k k' then Some v else alookup k l'
  end.
(** Rust core: [HashMap::insert]. *)
Fixpoint ainsert (k : text) (v : var) (l : list (text * var)) : list (text * var) :=
  match l with
  | [] => [(k, v)]
  | (k', v') :: l' => if teqb k k' then (k', v) :: l' else (k', v') :: ainsert k v l'
  end.

(** runtime/eval.rs 26-93: the first envelope item of a kind ([iter().find_map]). *)
Fixpoint envlookup (e : envk) (l : list (envk * var)) : option var :=
  match l with
  | [] => None
  | (e', v) :: l' => if envk_eqb e e' then Some v else envlookup e l'
  end.

(** Rust core. [slot.get_mut(i)] followed by an assignment; out of range: no effect. *)
Fixpoint upd {A} (i : nat) (x : A) (l : list A) : list A :=
  match l, i with
  | [], _ => []
  | _ :: l', 0 => x :: l'
  | y :: l', S i' => y :: upd i' x l'
  end.

(** eval.rs 26-93 [Context::variable] *)
Definition variable (c : vctx) (v : vartype) : option var :=
  match v with
  | TLocal i => nth_error (c_local c) i
  | TMatch i => nth_error (c_match c) i
  | TGlobal n => alookup n (c_global c)
  | TEnvironment n => match alookup n (c_env c) with
                      | Some x => Some x
                      | None => alookup n (c_rtenv c)
                      end
  | TEnvelope e => envlookup e (c_envelope c)
  | TMessage k => c_message c k
  end.

(** runtime/mod.rs 197-204. compiler/mod.rs [Number] to [Variable] and its Display *)
Definition var_of_number (n : number) : var :=
  match n with NInt z => VInt z | NFloat f => VFloat f end.

Section E.
  Variable L : rustlib.

  (** eval.rs 101-119: one piece of a concatenation. *)
  Definition piece (c : vctx) (x : value) : text :=
    match x with
    | XText s => s
    | XVariable v => match variable c v with Some x => v_text L x | None => [] end
    | XList _ => []
    | XNumber n => v_text L (var_of_number n)
    | XRegex _ => []
    end.

  (** eval.rs 95-125 [eval_value] *)
  Definition eval_value (c : vctx) (x : value) : var :=
    match x with
    | XText t => VStr t
    | XVariable v => match variable c v with Some x => x | None => vdefault end
    | XList l => VStr (flat_map (piece c) l)
    | XNumber n => var_of_number n
    | XRegex e => VStr e
    end.
End E.

(** variables.rs 12-20 [set_match_variables]; an index out of range is ignored
    (debug assertion). *)
Fixpoint set_match_variables (set : list (nat * text)) (m : list var) : list var :=
  match set with
  | [] => m
  | (k, t) :: set' => set_match_variables set' (upd k (VStr t) m)
  end.

(** variables.rs 22-34 [clear_match_variables]: the loop peels off the highest
    set bit of [positions]; [fuel] is the number of bits. *)
Fixpoint clear_loop (fuel : nat) (positions : N) (m : list var) : list var :=
  match fuel with
  | 0 => m
  | S f =>
      if N.eqb positions 0 then m
      else let index := N.to_nat (N.log2 positions) in
           clear_loop f (N.lxor positions (N.shiftl 1 (N.of_nat index)))
             (match nth_error m index with
              | Some v => if v_is_empty v then m else upd index vdefault m
              | None => m
              end)
  end.
(** runtime/variables.rs 22-34 [clear_match_variables]. *)
Definition clear_match_variables (positions : N) (m : list var) : list var :=
  clear_loop 64 positions m.
