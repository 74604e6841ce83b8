(** Model of the declarations in the setup methods of the OpenMDAO components (ccblade/ccblade_component.py), and of the keys that
    compute_partials writes. The framework's rule, not part of this repository, is modelled by [depends]: a later declaration
    overrides an earlier one, a pair nobody declares is independent (its partial is zero), and writing J at an independent pair is
    an error. Shapes, units, defaults, rows and cols are left out (the latter are in [geometry_partials]). *)
From Coq Require Import Reals Bool Arith Ascii String List.
From Verif Require Import Prelim Num Bem Interp BemDiff Blade BladeDiff Component.
Import ListNotations.
Open Scope string_scope.

(** One call of declare_partials: patterns for outputs and inputs, dependent=, and whether val= is given. *)
Record declaration := mkDecl { d_of : list string; d_wrt : list string; d_dep : bool; d_val : bool }.

(** A name, or a prefix followed by a star. *)
Fixpoint matches (pattern name : string) : bool :=
  match pattern, name with
  | "*"%string, _ => true
  | EmptyString, EmptyString => true
  | String a p, String b n => andb (Ascii.eqb a b) (matches p n)
  | _, _ => false
  end.
Definition covers (d : declaration) (of wrt : string) : bool :=
  andb (existsb (fun p => matches p of) (d_of d)) (existsb (fun p => matches p wrt) (d_wrt d)).
Definition latest_decl (ds : list declaration) (of wrt : string) : option declaration :=
  fold_left (fun acc d => if covers d of wrt then Some d else acc) ds None.
Definition depends (ds : list declaration) (of wrt : string) : bool :=
  match latest_decl ds of wrt with Some d => d_dep d | None => false end.
(** The value was given in setup once and for all. *)
Definition constant (ds : list declaration) (of wrt : string) : bool :=
  match latest_decl ds of wrt with Some d => d_val d | None => false end.

(** CCBladeGeometry, ccblade_component.py:46-62 and 79-85. *)
Definition geometry_inputs : list string := ["Rtip"; "precurve_in"; "presweep_in"; "precone"].
Definition geometry_outputs : list string := ["R"; "diameter"; "precurveTip"; "presweepTip"].
Definition geometry_declared : list declaration :=
  [mkDecl ["R"] ["Rtip"; "precone"] true false;
   mkDecl ["diameter"] ["Rtip"; "precone"] true false;
   mkDecl ["R"; "diameter"] ["precurve_in"] true false;
   mkDecl ["precurveTip"] ["precurve_in"] true true;
   mkDecl ["presweepTip"] ["presweep_in"] true true].
Definition geometry_keys : list (string * string) :=
  [("R", "precurve_in"); ("R", "Rtip"); ("R", "precone"); ("diameter", "precurve_in"); ("diameter", "Rtip"); ("diameter", "precone")].

(** CCBladeLoads, ccblade_component.py:184-267 and 351-381; real inputs only (not the discrete ones). *)
Definition loads_inputs : list string :=
  ["V_load"; "Omega_load"; "pitch_load"; "azimuth_load"; "r"; "chord"; "theta"; "Rhub"; "Rtip"; "hub_height"; "precone"; "tilt"; "yaw";
   "precurve"; "precurveTip"; "airfoils_cl"; "airfoils_cd"; "airfoils_cm"; "airfoils_aoa"; "airfoils_Re"; "rho"; "mu"; "shearExp"].
Definition loads_outputs : list string := ["loads_r"; "loads_Px"; "loads_Py"; "loads_Pz"].
Definition loads_wrt : list string :=
  ["Omega_load"; "Rhub"; "Rtip"; "V_load"; "azimuth_load"; "chord"; "hub_height"; "pitch_load"; "precone"; "precurve"; "r"; "theta"; "tilt";
   "yaw"; "shearExp"].
Definition loads_declared : list declaration :=
  [mkDecl ["loads_Px"] loads_wrt true false;
   mkDecl ["loads_Py"] loads_wrt true false;
   mkDecl ["loads_Pz"] ["*"] false false;
   mkDecl ["loads_r"] ["r"] true true;
   mkDecl ["*"] ["airfoils*"] false false].
Definition loads_written : list string :=
  ["r"; "chord"; "theta"; "Rhub"; "Rtip"; "hub_height"; "precone"; "tilt"; "yaw"; "shearExp"; "V_load"; "Omega_load"; "pitch_load";
   "azimuth_load"; "precurve"].
Definition loads_keys : list (string * string) :=
  map (fun x => ("loads_Px", x)) loads_written ++ map (fun x => ("loads_Py", x)) loads_written.

(** CCBladeEvaluate, ccblade_component.py:720-766 and 916-1218; one entry per pair, the rows 0, 1, 2 of the vector outputs are not
    told apart. *)
Definition evaluate_inputs : list string :=
  ["V_load"; "Omega_load"; "pitch_load"; "r"; "chord"; "theta"; "Rhub"; "Rtip"; "hub_height"; "precone"; "tilt"; "yaw"; "precurve";
   "precurveTip"; "presweep"; "presweepTip"; "airfoils_cl"; "airfoils_cd"; "airfoils_cm"; "airfoils_aoa"; "airfoils_Re"; "rho"; "mu"; "shearExp"].
Definition evaluate_outputs : list string := ["P"; "Mb"; "Fhub"; "Mhub"; "CP"; "CMb"; "CFhub"; "CMhub"].
Definition evaluate_declared : list declaration := [mkDecl ["*"] ["*"] true false; mkDecl ["*"] ["airfoils*"] false false].
Definition evaluate_written : list string :=
  ["r"; "chord"; "theta"; "Rhub"; "Rtip"; "hub_height"; "precone"; "tilt"; "yaw"; "shearExp"; "V_load"; "Omega_load"; "pitch_load"; "precurve";
   "precurveTip"; "presweep"; "presweepTip"].
Definition evaluate_keys : list (string * string) :=
  flat_map (fun o => map (fun x => (o, x)) evaluate_written) ["P"; "Fhub"; "Mhub"; "Mb"; "CP"; "CFhub"; "CMhub"; "CMb"].
