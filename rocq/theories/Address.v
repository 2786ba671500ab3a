(** Model of the address functions: action_redirect.rs sanitize_address,
    test_envelope.rs parse_envelope_address, context.rs set_envelope,
    set_user_full_name and user_from_field. *)
From Verif Require Import Base Lib.

(** action_redirect.rs 89-137 [sanitize_address]: the loop over the characters.
    [result] is in order. *)
Fixpoint sanitize_go (s : text) (result : text) (in_quote : bool) (last_ch : ch)
         (has_at has_dot : bool) : option text :=
  match s with
  | [] => match result with
          | [] => None
          | _ => if has_at && has_dot then Some result else None
          end
  | c :: s' =>
      if N.eqb c c_dquote then
        sanitize_go s' result
          (if negb in_quote then true else if negb (N.eqb last_ch c_bslash) then false else true)
          c has_at has_dot
      else if N.eqb c c_at && negb in_quote then
        (match result with
         | [] => None
         | _ => if has_at then None else sanitize_go s' (result ++ [c]) in_quote c true has_dot
         end)
      else if N.eqb c c_dot && negb in_quote && has_at && negb has_dot then
        sanitize_go s' (result ++ [c]) in_quote c has_at true
      else if N.eqb c 60 then sanitize_go s' [] in_quote c false false
      else if N.eqb c 62 then sanitize_go s' result in_quote c has_at has_dot
      else if negb (is_ws_ascii c) || in_quote then
        sanitize_go s' (result ++ [c]) in_quote c has_at has_dot
      else sanitize_go s' result in_quote c has_at has_dot
  end.
(** action_redirect.rs 89-138 [sanitize_address]. *)
Definition sanitize_address (addr : text) : option text :=
  sanitize_go addr [] false c_lf false false.

(** test_envelope.rs 171-258 [parse_envelope_address], on bytes: the loop state. *)
Record envst := { e_start : nat; e_end : nat; e_last : N; e_at : nat; e_bracket : bool; e_path : bool }.
(** test_envelope.rs 171-259. Outcome of one byte: reject, accept the null address, or go on. *)
Inductive envstep := EReject | ENull | EGo (st : envst).
(** test_envelope.rs 184-240: one byte [c] at position [pos] of an address of [len] bytes. *)
Definition env_step (len pos : nat) (c : N) (st : envst) : envstep :=
  let go s e a b p := EGo {| e_start := s; e_end := e; e_last := c; e_at := a; e_bracket := b; e_path := p |} in
  let s := e_start st in let e := e_end st in let a := e_at st in
  let b := e_bracket st in let p := e_path st in
  if N.eqb c 60 then
    if Nat.eqb pos 0 then go (pos + 1) e a true p else EReject
  else if N.eqb c 62 then
    if b && Nat.eqb pos (len - 1) then
      if Nat.ltb 2 len then go s pos a false p else ENull
    else EReject
  else if N.eqb c 58 then
    if negb (Nat.eqb a 0) then go (pos + 1) e 0 b false else EReject
  else if N.eqb c 44 then
    if negb (Nat.eqb a 0) then go s e 0 b true else EReject
  else if N.eqb c c_at then
    if Nat.eqb a 0 && negb (Nat.eqb pos (len - 1)) then go s e pos b p else EReject
  else if N.eqb c c_dot then
    if (negb (Nat.eqb a 0) && N.eqb (e_last st) c_dot) || N.eqb (e_last st) c_at then EReject
    else go s e a b p
  else if is_ws_ascii c || negb (N.ltb c 128) then EReject
  else go s e a b p.
(** test_envelope.rs 184-240: the loop over the bytes. *)
Fixpoint env_go (len pos : nat) (s : list N) (st : envst) : envstep :=
  match s with
  | [] => EGo st
  | c :: s' => match env_step len pos c st with
               | EGo st' => env_go len (pos + 1) s' st'
               | r => r
               end
  end.
(** Rust core: . [addr[a..b]] *)
Definition slice (a b : nat) (s : list N) : list N := firstn (b - a) (skipn a s).
(** test_envelope.rs 171-259 [parse_envelope_address]. *)
Definition parse_envelope_address (addr : list N) : option (list N) :=
  match addr with
  | [] => Some []
  | _ =>
      match env_go (length addr) 0 addr
              {| e_start := 0; e_end := length addr; e_last := 0; e_at := 0; e_bracket := false; e_path := false |} with
      | EReject => None
      | ENull => Some []
      | EGo st =>
          let r := slice (e_start st) (e_end st) addr in
          if negb (e_bracket st) && negb (e_path st) && Nat.ltb (e_start st) (e_at st) && Nat.ltb (e_at st) (e_end st - 1)
          then Some r
          else (* get(start..end) is None when start > end *)
            if Nat.leb (e_start st) (e_end st) && Nat.eqb (e_at st) 0 && teqb_ic r (lit "mailer-daemon")
            then Some r else None
      end
  end.

(** lib.rs 155-166 [Envelope] *)
Inductive envelope := EnvFrom | EnvTo | EnvByTimeAbsolute | EnvByTimeRelative | EnvByMode | EnvByTrace
                    | EnvNotify | EnvOrcpt | EnvRet | EnvEnvid.
(** context.rs 478-493 [set_envelope]; the name is already an [Envelope]. *)
Definition set_envelope (env : list (envelope * list N)) (e : envelope) (v : list N) : list (envelope * list N) :=
  match e with
  | EnvFrom | EnvTo => match parse_envelope_address v with Some a => env ++ [(e, a)] | None => env end
  | _ => env ++ [(e, v)]
  end.

(** context.rs 527-536 [set_user_full_name] *)
Definition escape_name (name : text) : text :=
  flat_map (fun c => if N.eqb c c_dquote || N.eqb c c_bslash then [c_bslash; c] else [c]) name.
(** context.rs 620-626 [user_from_field]; [name] is the stored (escaped) name. *)
Definition user_from_field (stored_name address : text) : text :=
  match stored_name with
  | [] => address
  | _ => c_dquote :: stored_name ++ c_dquote :: c_space :: 60%N :: address ++ [62%N]
  end.
