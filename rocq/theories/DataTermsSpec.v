(** Specification vocabulary for the data terms: the documented functionals, written
    independently of the model of the code. *)
From Verif Require Import Sums Convex.

(** the functional x -> f(x+bg). *)
Definition shift (f : func) (bg : R) : func := mkF (fun x => dom f (x + bg)) (fun x => val f (x + bg)).


(** Kullback-Leibler (emission convention) x - b ln x on x>0; for b=0 it is x on x>=0. *)
Definition KL_fun (b : R) : func :=
  mkF (fun x => if Req_EM_T b 0 then 0 <= x else 0 < x)
      (fun x => if Req_EM_T b 0 then x else x - b * ln x).


(** The Huber function with parameter e: quadratic (x-b)^2/(2e) up to |x-b| = e, slope 1 beyond. *)
Definition huber_fun (e b x : R) : R :=
  if Rle_dec (Rabs (x - b)) e then (if Req_EM_T e 0 then 0 else (x - b) ^ 2 / (2 * e))
  else Rabs (x - b) - e / 2.


(** Functional whose conjugate is  b p + sqrt(e)|p| + e p^2/2. *)
Definition l2b_fun (e b x : R) : R := (Rmax (Rabs (x - b) - sqrt e) 0) ^ 2 / (2 * e).


(** l1-ball functional max(|x-b|-e, 0). *)
Definition l1b_fun (e b x : R) : R := Rmax (Rabs (x - b) - e) 0.


(** Closest point of the euclidean ball of radius w to d (group of pixels g). *)
Definition is_ball_projection (g : list nat) (w : R) (d p : vec) : Prop :=
  sqrt (lsum g (fun j => p j ^ 2)) <= w /\
  forall q : vec, sqrt (lsum g (fun j => q j ^ 2)) <= w ->
    lsum g (fun j => (p j - d j) ^ 2) <= lsum g (fun j => (q j - d j) ^ 2).

