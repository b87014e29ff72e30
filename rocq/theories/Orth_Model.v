(** Conversions and error measures of waveguide modes: /repo/spins/fdfd_tools/waveguide.py:181-214
    (e2h, h2e), 251-307 (h_err, e_err), with curl_e and curl_h of Wg_Model.v.  Matrices are
    functions of the field, a product with sparse.diags is a product of the entries. *)
From Coq Require Import Reals.
From Verif Require Import Base CField GMath_Model CplxField Maxwell_Model Wg_Model.
Set Implicit Arguments.

Section Gen.
Variable K : cfield.
Local Open Scope K_scope.
Variable g : grid K.
Variables (beta omega : K) (eps : field3 K) (mu : option (field3 K)).
(** e2h, lines 181-198 *)
Definition wg_e2h (e : field3 K) : field3 K := fun c i j l =>
  let h := wg_curl_e g beta e c i j l / (- ki * omega) in
  match mu with None => h | Some m => 1 / m c i j l * h end.
(** h2e, lines 201-214 *)
Definition wg_h2e (h : field3 K) : field3 K := fun c i j l => 1 / (ki * omega * eps c i j l) * wg_curl_h g beta h c i j l.
(** the vectors op of h_err and e_err, lines 269-276, 299-305 *)
Definition h_op (h : field3 K) : field3 K := fun c i j l =>
  let cc := wg_curl_e g beta (fun c i j l => 1 / eps c i j l * wg_curl_h g beta h c i j l) c i j l in
  match mu with None => cc - omega * omega * h c i j l | Some m => cc - omega * omega * (m c i j l * h c i j l) end.
Definition e_op (e : field3 K) : field3 K := fun c i j l =>
  match mu with
  | None => wg_curl_h g beta (wg_curl_e g beta e) c i j l - omega * omega * (eps c i j l * e c i j l)
  | Some m => wg_curl_h g beta (fun c i j l => 1 / m c i j l * wg_curl_e g beta e c i j l) c i j l - omega * omega * (eps c i j l * e c i j l)
  end.
End Gen.

Local Open Scope R_scope.
Fixpoint psum (n : nat) (f : nat -> R) : R := match n with O => 0 | S n' => psum n' f + f n' end.
(** np.linalg.norm of the vectorized field on the plane *)
Definition plane_norm (g : grid CC) (f : field3 CC) : R :=
  sqrt (psum 3 (fun c => psum (dim g 0) (fun i => psum (dim g 1) (fun j => cabs (f c i j 0%nat) ^ 2)))).
(** norm(op) / norm(h); 0 / 0 and x / 0 (nan, inf and a warning in numpy) are an error value *)
Definition ratio (a b : R) : res R := if Req_EM_T b 0 then Err ZeroDivisionError else Ok (a / b).
Definition h_err (g : grid CC) (h : field3 CC) (beta omega : CC) (eps : field3 CC) (mu : option (field3 CC)) : res R :=
  ratio (plane_norm g (h_op g beta omega eps mu h)) (plane_norm g h).
Definition e_err (g : grid CC) (e : field3 CC) (beta omega : CC) (eps : field3 CC) (mu : option (field3 CC)) : res R :=
  ratio (plane_norm g (e_op g beta omega eps mu e)) (plane_norm g e).
