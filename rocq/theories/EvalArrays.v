(** evaluate called with three arrays whose lengths may differ (ccblade.py:1155-1488, coefficients=False). *)
From Coq Require Import Reals Bool Arith List.
From Verif Require Import Prelim Num Bem Blade.
Import ListNotations.
Open Scope R_scope.

(** numpy's product of two one-dimensional arrays, an array of one element standing for any number of copies. The first
    array may hold totals that are not finite ([None]). *)
Definition np_times (q : list (option R)) (w : list R) : res (list (option R)) :=
  if Nat.eqb (length q) (length w) then Ok (map (fun x => option_map (fun y => y * snd x) (fst x)) (combine q w))
  else match q, w with
       | [x], _ => Ok (map (fun y => option_map (fun v => v * y) x) w)
       | _, [y] => Ok (map (option_map (fun v => v * y)) q)
       | _, _ => Raise ValueError
       end.

Section Calls.
Variable npi : R.
Variable bq : rootfinder fl.

(** The loop over i in range(len(Uinf)), ccblade.py:1271-1290: Omega[i] and pitch[i] are read in the call at ccblade.py:1278,
    that is at least once, the number of sectors being at least one. *)
Fixpoint array_loop (i : nat) (Us Oms ps : list R) (b : blade) (W : option (list fl))
  : res (blade * list (option totals) * option (list fl)) :=
  match Us with
  | [] => Ok (b, [], W)
  | U :: Us' =>
      do Om <- pyget Oms i;
      do p <- pyget ps i;
      do out <- azimuth_loop npi bq (azimuths (b_nSector b)) b U Om p (Some tot0) W;
      let '(b', t, W') := out in
      do rest <- array_loop (S i) Us' Oms ps b' W';
      let '(b'', ts, W'') := rest in
      Ok (b'', t :: ts, W'')
  end.

(** The totals, one for each wind speed; P = Q * Omega * np.pi / 30.0 (ccblade.py:1328); W (ccblade.py:1458). *)
Definition evaluate_arrays (b : blade) (Us Oms ps : list R) : res (blade * list (option totals) * list (option R) * list fl) :=
  do out <- array_loop 0 Us Oms ps b None;
  let '(b', ts, W) := out in
  do qo <- np_times (map (option_map t_Q) ts) Oms;
  let P := map (option_map (fun x => x * PI / 30)) qo in
  match W with
  | None => Raise NameError
  | Some w => Ok (b', ts, P, w)
  end.
End Calls.

(** The conditions of three arrays of equal length. *)
Definition zip3 (Us Oms ps : list R) : list (R * R * R) := combine (combine Us Oms) ps.
