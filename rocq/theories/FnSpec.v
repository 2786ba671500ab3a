(** Compilers that differ in the functions registered with them only. *)
From Verif Require Import Base Lib Compile ParseBase.

(** The compiler [K] that knows the functions [f]: a name gives a number and the count of arguments. *)
Definition with_known (K : cenv) (f : text -> option (N * nat)) : cenv :=
  {| C_L := C_L K; C_M := C_M K; C_dec := C_dec K; C_regex := C_regex K; C_fns := f; C_umax := C_umax K;
     C_lim := C_lim K; C_string := C_string K; C_name := C_name K; C_hsize := C_hsize K; C_script := C_script K; C_nocheck := C_nocheck K |}.
