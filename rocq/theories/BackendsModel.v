(** Model of src/corrct/_projector_backends.py: native (ASTRA) handle management, geometry set-up, attenuation maps.
    The ASTRA toolbox is a table of live handles; any creation, link or run may raise (adversarial [fail]);
    deletions do not raise.  The numerical content of the ASTRA and scikit-image projections is not modelled. *)
From Verif Require Import Sums Rounding PyErr GeometryModel.
Import ListNotations.

(** * Native layer *)
(** what a native projector (or projection geometry) describes: all the angles, or the single angle i *)
Inductive desc := DAll | DOne (i : nat).
Inductive berr := Native | Py (e : py_err).
Record native := mkN {
  n_next : nat;                  (* next fresh handle *)
  n_call : nat;                  (* number of fallible native calls so far *)
  n_proj : list (nat * desc);    (* live projectors *)
  n_data : list nat;             (* live data objects *)
  n_algo : list nat;             (* live algorithms *)
  n_bad : bool;                  (* a dead handle was deleted or used *)
  n_runs : list (desc * desc) }. (* algorithms run: (projection geometry, projector) *)
Definition native0 : native := mkN 0 0 [] [] [] false [].
(** ** the backend object.  [k_pid] = None: the attribute proj_id does not exist yet (it is only an annotation).
    [k_geo]: attribute vol_geom set.  [k_gind]: number of entries of proj_geom_ind, None when the attribute is missing. *)
Record bk := mkB { k_pid : option (list nat); k_ready : bool; k_geo : bool; k_ind : bool; k_gind : option nat; k_gall : bool }.
(** 116-119, 371-380 [__init__] *)
Definition bk0 : bk := mkB None false false false None false.
Definition st := (native * bk)%type.
Definition M (A : Type) := st -> st * (berr + A).
Definition ret {A} (a : A) : M A := fun s => (s, inr a).
Definition raise {A} (e : berr) : M A := fun s => (s, inl e).
Definition bind {A B} (m : M A) (f : A -> M B) : M B :=
  fun s => let (s1, r) := m s in match r with inl e => (s1, inl e) | inr a => f a s1 end.
(** try: m finally: f *)
Definition try_finally {A} (m : M A) (f : M unit) : M A :=
  fun s => let (s1, r) := m s in
           let (s2, r2) := f s1 in match r2 with inl e => (s2, inl e) | inr _ => (s2, r) end.
Definition get_bk : M bk := fun s => (s, inr (snd s)).
Definition set_bk (f : bk -> bk) : M unit := fun s => ((fst s, f (snd s)), inr tt).
Notation "x <- m ;; k" := (bind m (fun x => k)) (at level 61, m at next level, right associativity).
Notation "m ;;; k" := (bind m (fun _ => k)) (at level 61, right associativity).

Section Native.
Variable fail : nat -> bool.
Definition bump (n : native) := mkN (n_next n) (S (n_call n)) (n_proj n) (n_data n) (n_algo n) (n_bad n) (n_runs n).
(** astra.create_projector *)
Definition create_projector (d : desc) : M nat := fun s =>
  let n := bump (fst s) in
  if fail (n_call (fst s)) then ((n, snd s), inl Native)
  else ((mkN (S (n_next n)) (n_call n) ((n_next n, d) :: n_proj n) (n_data n) (n_algo n) (n_bad n) (n_runs n), snd s), inr (n_next n)).
(** astra.projector.delete *)
Definition delete_projector (h : nat) : M unit := fun s =>
  let n := fst s in
  ((mkN (n_next n) (n_call n) (filter (fun p => negb (Nat.eqb (fst p) h)) (n_proj n)) (n_data n) (n_algo n)
        (n_bad n || negb (existsb (fun p => Nat.eqb (fst p) h) (n_proj n))) (n_runs n), snd s), inr tt).
(** data_mod.link *)
Definition link_data : M nat := fun s =>
  let n := bump (fst s) in
  if fail (n_call (fst s)) then ((n, snd s), inl Native)
  else ((mkN (S (n_next n)) (n_call n) (n_proj n) (n_next n :: n_data n) (n_algo n) (n_bad n) (n_runs n), snd s), inr (n_next n)).
Definition delete_data (h : nat) : M unit := fun s =>
  let n := fst s in
  ((mkN (n_next n) (n_call n) (n_proj n) (filter (fun x => negb (Nat.eqb x h)) (n_data n)) (n_algo n)
        (n_bad n || negb (existsb (Nat.eqb h) (n_data n))) (n_runs n), snd s), inr tt).
(** astra.algorithm.create: refers to two data objects and a projector *)
Definition create_algorithm (sid vid pid : nat) : M nat := fun s =>
  let n := bump (fst s) in
  let ok := (existsb (Nat.eqb sid) (n_data n) && existsb (Nat.eqb vid) (n_data n)
             && existsb (fun p => Nat.eqb (fst p) pid) (n_proj n))%bool in
  if fail (n_call (fst s)) then ((n, snd s), inl Native)
  else ((mkN (S (n_next n)) (n_call n) (n_proj n) (n_data n) (n_next n :: n_algo n) (n_bad n || negb ok) (n_runs n), snd s), inr (n_next n)).
Definition delete_algorithm (h : nat) : M unit := fun s =>
  let n := fst s in
  ((mkN (n_next n) (n_call n) (n_proj n) (n_data n) (filter (fun x => negb (Nat.eqb x h)) (n_algo n))
        (n_bad n || negb (existsb (Nat.eqb h) (n_algo n))) (n_runs n), snd s), inr tt).
Definition lookup (h : nat) (l : list (nat * desc)) : option desc :=
  option_map snd (find (fun p => Nat.eqb (fst p) h) l).
(** astra.algorithm.run (and astra.experimental.direct_FP3D / BP3D for the direct backend) *)
Definition run (geom : desc) (pid : nat) : M unit := fun s =>
  let n := bump (fst s) in
  if fail (n_call (fst s)) then ((n, snd s), inl Native)
  else match lookup pid (n_proj n) with
       | None => ((mkN (n_next n) (n_call n) (n_proj n) (n_data n) (n_algo n) true (n_runs n), snd s), inr tt)
       | Some d => ((mkN (n_next n) (n_call n) (n_proj n) (n_data n) (n_algo n) (n_bad n) ((geom, d) :: n_runs n), snd s), inr tt)
       end.

(** * ProjectorBackendASTRA *)
(** 557-563 [dispose] *)
Fixpoint delete_all (l : list nat) : M unit :=
  match l with [] => ret tt | h :: l' => delete_projector h ;;; delete_all l' end.
Definition dispose : M unit :=
  b <- get_bk ;;
  match k_pid b with
  | None => raise (Py AttributeError)
  | Some l =>
    delete_all l ;;;
    set_bk (fun b => mkB (Some []) (k_ready b) (k_geo b) (k_ind b) (k_gind b) (k_gall b)) ;;;
    set_bk (fun b => mkB (k_pid b) false (k_geo b) (k_ind b) (k_gind b) (k_gall b))
  end.
(** 382-485 [initialize_geometry] (and 679-769 for the direct backend, the same handle operations).
    [pre]: the argument checks raise; [post]: building the geometry raises after [dispose]. *)
Definition initialize_geometry (num_angles : nat) (ind : bool) (pre post : bool) : M unit :=
  if pre then raise (Py ValueError) else
  set_bk (fun b => mkB (k_pid b) (k_ready b) true ind (k_gind b) (k_gall b)) ;;;
  set_bk (fun b => mkB (Some []) (k_ready b) (k_geo b) (k_ind b) (k_gind b) (k_gall b)) ;;;
  dispose ;;;
  if post then raise (Py ValueError) else
  set_bk (fun b => mkB (k_pid b) (k_ready b) (k_geo b) (k_ind b) (if ind then Some num_angles else k_gind b) true).
(** 505-532 [make_ready] (771-783 direct).  The list comprehension only assigns proj_id once it is complete. *)
Fixpoint create_list (ds : list desc) : M (list nat) :=
  match ds with
  | [] => ret []
  | d :: ds' => h <- create_projector d ;; t <- create_list ds' ;; ret (h :: t)
  end.
Definition set_pid (l : list nat) : M unit :=
  set_bk (fun b => mkB (Some l) (k_ready b) (k_geo b) (k_ind b) (k_gind b) (k_gall b)).
Definition make_ready : M unit :=
  b <- get_bk ;;
  (if k_ready b then ret tt
   else if negb (k_geo b) then raise (Py AttributeError)
   else
     (if k_ind b then
        match k_gind b with
        | None => raise (Py AttributeError)
        | Some n => l <- create_list (map DOne (seq 0 n)) ;; set_pid l
        end
      else ret tt) ;;;
     b <- get_bk ;;
     if negb (k_gall b) then raise (Py AttributeError)
     else
       h <- create_projector DAll ;;
       b <- get_bk ;;
       match k_pid b with None => raise (Py AttributeError) | Some l => set_pid (l ++ [h]) end) ;;;
  set_bk (fun b => mkB (k_pid b) true (k_geo b) (k_ind b) (k_gind b) (k_gall b)).
(** Python indexing of a list of length n by an integer: negative counts from the end *)
Definition py_index (n : nat) (i : Z) : option nat :=
  if (0 <=? i)%Z then (if (i <? Z.of_nat n)%Z then Some (Z.to_nat i) else None)
  else (if (- Z.of_nat n <=? i)%Z then Some (Z.to_nat (Z.of_nat n + i)) else None).
(** 584-594 / 637-647: geometry and projector used for a call.  [data_ok]: the shape checks on the input pass. *)
Definition select (angle_ind : option Z) : M (desc * nat) :=
  b <- get_bk ;;
  match k_pid b with
  | None => raise (Py AttributeError)
  | Some l =>
    match angle_ind with
    | None => match rev l with [] => raise (Py IndexError) | h :: _ => ret (DAll, h) end
    | Some i =>
      if negb (k_ind b) then raise (Py ValueError)
      else match k_gind b with
           | None => raise (Py AttributeError)
           | Some n =>
             match py_index n i with
             | None => raise (Py IndexError)
             | Some g => match py_index (List.length l) i with
                         | None => raise (Py IndexError)
                         | Some p => ret (DOne g, nth p l 0%nat)
                         end
             end
           end
    end
  end.
(** 565-615 [fp], 617-668 [bp]: the same native calls *)
Definition project (data_ok : bool) (angle_ind : option Z) : M unit :=
  make_ready ;;;
  (if data_ok then ret tt else raise (Py ValueError)) ;;;
  gp <- select angle_ind ;;
  vid <- link_data ;;
  try_finally
    (sid <- link_data ;;
     try_finally
       (aid <- create_algorithm sid vid (snd gp) ;;
        try_finally (run (fst gp) (snd gp)) (delete_algorithm aid))
       (delete_data sid))
    (delete_data vid).

(** * ProjectorBackendDirectASTRA *)
(** 785-815 [fp], 817-847 [bp]: proj_geom_ind is not consulted *)
Definition select_direct (angle_ind : option Z) : M (desc * nat) :=
  b <- get_bk ;;
  match k_pid b with
  | None => raise (Py AttributeError)
  | Some l =>
    match angle_ind with
    | None => match rev l with [] => raise (Py IndexError) | h :: _ => ret (DAll, h) end
    | Some i =>
      if negb (k_ind b) then raise (Py ValueError)
      else match py_index (List.length l) i with
           | None => raise (Py IndexError)
           (* the buffers have the size of one projection; recorded as the angle the caller means: i counted as in Python
              among the angles (the code itself never consults the geometries here) *)
           | Some p => let n := match k_gind b with Some n => n | None => 0%nat end in
                       ret (DOne (Z.to_nat (if (i <? 0)%Z then Z.of_nat n + i else i)%Z), nth p l 0%nat)
           end
    end
  end.
Definition project_direct (data_ok : bool) (angle_ind : option Z) : M unit :=
  make_ready ;;;
  gp <- select_direct angle_ind ;;
  (if data_ok then ret tt else raise (Py ValueError)) ;;;
  run (fst gp) (snd gp).

(** 196-199 [__del__] *)
Definition del : M unit := b <- get_bk ;; if k_ready b then dispose else ret tt.

(** * Histories of method calls; exceptions are caught by the caller, who goes on *)
Inductive bop :=
| OInit (n : nat) (ind pre post : bool) | OReady | OProject (data_ok : bool) (i : option Z)
| OProjectDirect (data_ok : bool) (i : option Z) | ODispose | ODel.
Definition do_op (o : bop) : M unit :=
  match o with
  | OInit n ind pre post => initialize_geometry n ind pre post
  | OReady => make_ready
  | OProject ok i => project ok i
  | OProjectDirect ok i => project_direct ok i
  | ODispose => dispose
  | ODel => del
  end.
Fixpoint run_ops (ops : list bop) (s : st) : st :=
  match ops with [] => s | o :: ops' => run_ops ops' (fst (do_op o s)) end.
End Native.

(** * Geometry set-up *)
Local Open Scope R_scope.
(** 144-156 base shapes: floor(shape * vox_size) *)
Definition vol_eff (g : vol_geom) : list nat := map (fun n => Z.to_nat (rfloor (INR n * vg_vox g))) (shape_zxy g).
Definition base_prj_shape (g : vol_geom) (num_angles : nat) : list nat :=
  let e := vol_eff g in
  firstn (List.length e - 2) e ++ [num_angles; last e 0%nat].
(** 424-473 [initialize_geometry] of the ASTRA backend: the detector shape is written into the caller's geometry object when
    it was None.  Result: (projection shape, the caller's geometry afterwards). *)
Definition astra_setup (g : vol_geom) (num_angles : nat) (pg : prj_geom) : list nat * prj_geom :=
  let base := base_prj_shape g num_angles in
  if is_3D g then
    match g_shape pg with
    | None => (base, set_shape pg [nth (List.length base - 3) base 0%nat; last base 0%nat])
    | Some d => (firstn (List.length d - 1) d ++ [num_angles; last d 0%nat], pg)
    end
  else
    match g_shape pg with
    | None => (base, set_shape pg [last base 0%nat])
    | Some d => ([num_angles; last d 0%nat], pg)
    end.
(** 725-741 the direct backend works on the copy returned by get_3d *)
Definition direct_setup (g : vol_geom) (num_angles : nat) (pg : prj_geom) : list nat * prj_geom :=
  let base := base_prj_shape g num_angles in
  (match g_shape pg with Some d => firstn (List.length d - 1) d ++ [num_angles; last d 0%nat] | None => base end, pg).
(** 436-446, 475 the U vectors handed to ASTRA by the traditional interface: the rotated field scaled by the pixel/voxel
    ratio, divided by the voxel size; 743-753: the direct interface does not divide.  Three components (the 2-D case keeps
    the first two). *)
Definition astra_vector (w : vec3) (ratio vox : R) : vec3 := vscal (/ vox) (vscal (/ ratio) w).
Definition direct_vector (w : vec3) (ratio vox : R) : vec3 := vscal (/ ratio) w.

(** * 43-99 [compute_attenuation] *)
(** one slice: a 2-D array; [rot a] = skimage.transform.rotate(., a, order=1, clip=False) of an array of the given shape *)
Definition img := nat -> nat -> R.
Definition nceil (x : R) : nat := Z.to_nat (rceil x).
Definition att_min_size (h w : nat) : R := IZR (rceil (sqrt (INR h * INR h + INR w * INR w))).
Definition att_edge (h w n : nat) : nat := nceil ((att_min_size h w - INR n) / 2).
Definition pad2 (h w eh ew : nat) (x : img) : img :=
  fun i j => if (Nat.leb eh i && Nat.ltb i (eh + h) && Nat.leb ew j && Nat.ltb j (ew + w))%bool then x (i - eh)%nat (j - ew)%nat else 0.
(** vol += np.roll(vol, 1, axis=-2); cumsum(vol / 2, axis=-2) *)
Definition roll_add (H : nat) (x : img) : img := fun i j => x i j + x ((i + H - 1) mod H)%nat j.
Definition cumsum_half (x : img) : img := fun i j => rsum (S i) (fun k => x k j / 2).
Definition att_slice (rot : R -> img -> img) (h w : nat) (angle_rad : R) (invert : bool) (x : img) : img :=
  let eh := att_edge h w h in let ew := att_edge h w w in
  let H := (h + 2 * eh)%nat in
  let a := (if invert then angle_rad + PI else angle_rad) * (180 / PI) in
  let p := pad2 h w eh ew x in
  let c := rot a (cumsum_half (roll_add H (rot (- a) p))) in
  fun i j => exp (- c (i + eh)%nat (j + ew)%nat).
(** cum_arr[..., e0:-e0, e1:-e1]: numpy slice length of n+2e entries *)
Definition crop_len (n e : nat) : nat := if Nat.eqb e 0 then 0%nat else (n + 2 * e - 2 * e)%nat.
Definition att_shape (shape : list nat) : list nat :=
  let n := List.length shape in
  let h := nth (n - 2) shape 0%nat in let w := nth (n - 1) shape 0%nat in
  firstn (n - 2) shape ++ [crop_len h (att_edge h w h); crop_len w (att_edge h w w)].
