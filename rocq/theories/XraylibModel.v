(** * xraylib_helper.py:14-84 with its table of known compounds, and phase.py:25-84.  xraylib's tables are parameters.
    PhysicsModel.v has get_compound with the two look-ups merged into one; here they are apart, with what the table says
    about the density. *)
From Coq Require Import Reals Lra Lia List ZArith String Bool.
From Verif Require Import Sums PyErr Rounding PhysicsModel.
Import ListNotations.
Open Scope R_scope.

(** an element, as the caller names it: a Python int, a numpy integer (not an [int]), or a symbol *)
Inductive element_arg := EInt (z : nat) | ENumpyInt (z : nat) | ESymbol (s : string).
(** 14-30 [get_element_number].  [number_of]: SymbolToAtomicNumber, None = it raises ValueError; given something that is not
    a string it raises TypeError. *)
Definition get_element_number (number_of : string -> option nat) (e : element_arg) : py_err + nat :=
  match e with
  | EInt z => inr z
  | ENumpyInt _ => inl TypeError
  | ESymbol s => match number_of s with Some z => inr z | None => inl ValueError end
  end.
(** 33-53 [get_element_number_and_symbol] (the symbol first) *)
Definition get_element_number_and_symbol (number_of : string -> option nat) (symbol_of : nat -> option string) (e : element_arg) : py_err + (string * nat) :=
  match e with
  | ESymbol s => match number_of s with Some z => inr (s, z) | None => inl ValueError end
  | EInt z | ENumpyInt z => match symbol_of z with Some s => inr (s, z) | None => inl ValueError end
  end.

(** an entry of the NIST table: elements, mass fractions and the density *)
Record nist_entry := { n_elements : list nat; n_fractions : list R; n_density : R }.
(** 56-84 [get_compound]: the table first (72), the parser if that raises (74); line 77-81: without a density the one computed from
    the elements, stored over the table's (82). *)
Definition get_compound_nist (nist : string -> option nist_entry) (parser : string -> option (list nat * list R)) (el_density : nat -> R)
    (name : string) (density : option R) : py_err + compound :=
  let found := match nist name with
               | Some e => Some (n_elements e, n_fractions e)
               | None => parser name
               end in
  match found with
  | None => inl ValueError
  | Some (els, fr) =>
    inr (mkCompound name els fr (match density with Some d => d | None => fold_right Rplus 0 (map (fun p => el_density (fst p) * snd p) (combine els fr)) end))
  end.

(** phase.py:25-44 [get_delta_beta]; [refr name energy density]: xraylib's complex refractive index as the pair
    (real part, imaginary part), None = it raises ValueError *)
Definition get_delta_beta nist parser el_density (refr : string -> R -> R -> option (R * R)) (name : string) (energy : R) (density : option R) : py_err + R :=
  match get_compound_nist nist parser el_density name density with
  | inl e => inl e
  | inr c => match refr name energy (cdensity c) with
             | None => inl ValueError
             | Some n => inr ((1 - fst n) / snd n)
             end
  end.
(** the elements of a comprehension, in order: the first error ends it *)
Fixpoint collect {A B} (f : A -> py_err + B) (l : list A) : py_err + list B :=
  match l with
  | [] => inr []
  | a :: r => match f a with inl e => inl e | inr b => match collect f r with inl e => inl e | inr bs => inr (b :: bs) end end
  end.
(** phase.py:47-84 [get_delta_beta_curves] without the plot: energies = linspace(lo, hi, m) *)
Definition get_delta_beta_curves nist parser el_density refr (names : list string) (lo hi : R) (m : nat) : py_err + list (list R) :=
  collect (fun c => collect (fun i => get_delta_beta nist parser el_density refr c (linspace lo hi m i) None) (seq 0 m)) names.
