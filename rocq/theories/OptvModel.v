(* Model of the optional-parameter defaults: falco/setup.py:120-460, set_optional_variables.
   The parameter object mp is modelled as a store from attribute paths (mp.dm1.Vmax is
   ["dm1"; "Vmax"]) to values.  The program below is a statement-by-statement transcription of
   the function body: each entry is one assignment, the list of `if` conditions it is nested in,
   and whether it sits under `if not hasattr(<target>)`; the number in the comment is its line.
   Simplifications: values are immutable, so the aliasing of facesheetFlatmap with biasMap and of
   DM8V0 with dm8.V is not visible; falco.config.Object() and EmptyClass() are both VObj; the
   lazy Eval values of falco.config.Object are taken as already evaluated; numbers are real. *)
From Verif Require Import Base StrBase RBase.
From Coq Require Import String Ascii.
Local Open Scope string_scope.

Definition path := list string.
Definition path_dec : forall p q : path, {p = q} + {p <> q} := list_eq_dec string_dec.

(* Python values, as far as the function looks at them.  VObj: an object with settable attributes;
   VArr: a 1-D numeric array; VMat r c v: an r x c array filled with v; VSched: a ProbeSchedule();
   VOther: any other value, equal to no integer, always true. *)
Inductive value : Type :=
| VObj | VBool (b : bool) | VInt (n : Z) | VNum (x : R) | VStr (s : string)
| VList (l : list value) | VArr (l : list R) | VMat (r c : Z) (v : R) | VSched | VOther (k : nat).

Definition store := path -> option value.
Definition upd (s : store) (p : path) (v : value) : store :=
  fun q => if path_dec p q then Some v else s q.

(* x.y.z : AttributeError if absent *)
Definition getattr (s : store) (p : path) : res value :=
  match s p with Some v => Ok v | None => Raise AttributeError end.
(* reading the object an attribute belongs to; mp itself ([]) is always there *)
Definition getobj (s : store) (p : path) : res value :=
  match p with [] => Ok VObj | _ => getattr s p end.

Inductive guard : Type :=
| GTrue (p : path) (b : bool)   (* the `if mp.p:` branch (true) or its else branch (false) *)
| GHas (p : path)               (* if hasattr(mp.<parent>, <last>): *)
| GUsed (k : Z).                (* if np.any(mp.dm_ind == k): *)
Inductive expr : Type :=
| EC (v : value)                         (* a constant *)
| EGet (p : path)                        (* mp.p *)
| EOnes (c : R) (p : path)               (* c * np.ones(mp.p) *)
| EHalf (vmax nact : path)               (* mp.vmax/2*np.ones((mp.nact, mp.nact)) *)
| EJoin (l : list string)                (* os.path.join(mp.path.falco, l...) *)
| EMas.                                  (* 1/(mp.lambda0/mp.P1.D*180/np.pi*3600*1000) *)
Record stmt := mkst { conds : list guard; target : path; only_missing : bool; rhs : expr }.

(* bool(v): numpy arrays of more than one element have no truth value *)
Definition truth (v : value) : res bool :=
  match v with
  | VBool b => Ok b
  | VInt n => Ok (negb (Z.eqb n 0))
  | VNum x => Ok (if Req_EM_T x 0 then false else true)
  | VStr s => Ok (negb (String.eqb s ""))
  | VList l => Ok (match l with [] => false | _ => true end)
  | VArr [] => Ok false
  | VArr [x] => Ok (if Req_EM_T x 0 then false else true)
  | VArr _ => Raise ValueError
  | VMat r c x => if Z.eqb (r * c) 0 then Ok false
                  else if Z.eqb (r * c) 1 then Ok (if Req_EM_T x 0 then false else true)
                  else Raise ValueError
  | VObj | VSched | VOther _ => Ok true
  end.
(* np.any(v == k) : a list compares unequal to an integer, an array compares elementwise *)
Definition any_eq (v : value) (k : Z) : bool :=
  match v with
  | VInt n => Z.eqb n k
  | VBool b => Z.eqb (if b then 1 else 0) k
  | VNum x => if Req_EM_T x (IZR k) then true else false
  | VArr l => existsb (fun x => if Req_EM_T x (IZR k) then true else false) l
  | VMat r c x => (Z.ltb 0 (r * c) && if Req_EM_T x (IZR k) then true else false)%bool
  | VList _ | VStr _ | VObj | VSched | VOther _ => false
  end.
(* a number, when the value is one *)
Definition number (v : value) : res R :=
  match v with
  | VInt n => Ok (IZR n) | VNum x => Ok x | VBool b => Ok (if b then 1 else 0)
  | _ => Raise TypeError
  end.
(* np.ones(v): v an integer (array-like shapes, which the program never needs, are refused here) *)
Definition dimension (v : value) : res Z :=
  match v with
  | VInt n => if Z.ltb n 0 then Raise ValueError else Ok n
  | VBool b => Ok (if b then 1 else 0)%Z
  | _ => Raise TypeError
  end.

(* posixpath.join of two parts *)
Definition ends_slash (a : string) : bool :=
  match get (String.length a - 1) a with Some c => Ascii.eqb c "/" | None => false end.
Definition join2 (a b : string) : string :=
  if prefix "/" b then b
  else if (String.eqb a "" || ends_slash a)%bool then a ++ b else a ++ "/" ++ b.

Definition eval_guard (s : store) (g : guard) : res bool :=
  match g with
  | GTrue p b => do v <- getattr s p; do t <- truth v; Ok (Bool.eqb t b)
  | GHas p => do o <- getobj s (removelast p); Ok (match s p with Some _ => true | None => false end)
  | GUsed k => do v <- getattr s ["dm_ind"]; Ok (any_eq v k)
  end.
(* nested ifs: an inner condition is evaluated only when the outer ones hold *)
Fixpoint eval_guards (s : store) (gs : list guard) : res bool :=
  match gs with
  | [] => Ok true
  | g :: t => do b <- eval_guard s g; if (b : bool) then eval_guards s t else Ok false
  end.
Definition eval_expr (s : store) (e : expr) : res value :=
  match e with
  | EC v => Ok v
  | EGet p => getattr s p
  | EOnes c p => do v <- getattr s p; do n <- dimension v; Ok (VArr (repeat c (Z.to_nat n)))
  | EHalf pv pn => do v <- getattr s pv; do x <- number v;
                   do m <- getattr s pn; do n <- dimension m; Ok (VMat n n (x / 2))
  | EJoin l => do v <- getattr s ["path"; "falco"];
               match v with
               | VStr a => Ok (VStr (fold_left join2 l a))
               | _ => Raise TypeError
               end
  | EMas => do v <- getattr s ["lambda0"]; do o <- getattr s ["P1"]; do d <- getattr s ["P1"; "D"];
            do x <- number v; do y <- number d;
            if Req_EM_T y 0 then Raise ZeroDivisionError
            else if Req_EM_T x 0 then Raise ZeroDivisionError
            else Ok (VNum (1 / (x / y * 180 / PI * 3600 * 1000)))
  end.
(* mp.<parent>.<last> = v : only an object takes attributes *)
Definition setattr (s : store) (p : path) (v : value) : res store :=
  do o <- getobj s (removelast p);
  match o with VObj => Ok (upd s p v) | _ => Raise AttributeError end.
(* one assignment with the ifs around it *)
Definition exec (s : store) (st : stmt) : res store :=
  do b <- eval_guards s (conds st);
  if negb b then Ok s else
  do o <- getobj s (removelast (target st));
  match only_missing st, s (target st) with
  | true, Some _ => Ok s
  | _, _ => do v <- eval_expr s (rhs st); setattr s (target st) v
  end.
Fixpoint exec_all (s : store) (l : list stmt) : res store :=
  match l with [] => Ok s | st :: t => do s1 <- exec s st; exec_all s1 t end.

(* falco/setup.py:134-458, in order.  [falcohome] is the parent of the directory holding setup.py
   (lines 159-161), [cpus] is psutil.cpu_count(logical=False) (line 179). *)
Definition program (falcohome : string) (cpus : Z) : list stmt :=
  [
   mkst [] ["compact"] true (EC VObj) (* 136 *);
   mkst [] ["full"] true (EC VObj) (* 138 *);
   mkst [] ["jac"] true (EC VObj) (* 140 *);
   mkst [] ["est"] true (EC VObj) (* 142 *);
   mkst [] ["est"; "probe"] true (EC VObj) (* 144 *);
   mkst [] ["detector"] true (EC VObj) (* 146 *);
   mkst [] ["star"] true (EC VObj) (* 148 *);
   mkst [] ["compact"; "star"] true (EC VObj) (* 150 *);
   mkst [] ["path"] true (EC VObj) (* 152 *);
   mkst [] ["jac"] true (EC VObj) (* 154 *);
   mkst [] ["jac"; "star"] true (EC VObj) (* 156 *);
   mkst [] ["path"; "falco"] false (EC (VStr falcohome)) (* 161 *);
   mkst [] ["path"; "brief"] true (EJoin ["data"; "brief"]) (* 165 *);
   mkst [] ["path"; "config"] true (EJoin ["data"; "config"]) (* 167 *);
   mkst [] ["path"; "ws"] true (EJoin ["data"; "ws"]) (* 170 *);
   mkst [] ["path"; "jac"] true (EJoin ["data"; "jac"]) (* 173 *);
   mkst [] ["flagParallel"] true (EC (VBool false)) (* 177 *);
   mkst [] ["Nthreads"] true (EC (VInt cpus)) (* 179 *);
   mkst [] ["flagSaveWS"] true (EC (VBool false)) (* 183 *);
   mkst [] ["flagSVD"] true (EC (VBool false)) (* 185 *);
   mkst [] ["full"; "flagPROPER"] true (EC (VBool false)) (* 189 *);
   mkst [] ["flagRotation"] true (EC (VBool true)) (* 191 *);
   mkst [] ["flagTrainModel"] true (EC (VBool false)) (* 195 *);
   mkst [] ["flagUseLearnedJac"] true (EC (VBool false)) (* 197 *);
   mkst [] ["est"; "flagUseJac"] true (EC (VBool false)) (* 199 *);
   mkst [] ["est"; "ItrStartKF"] true (EC (VInt 2)) (* 201 *);
   mkst [] ["ctrl"; "flagUseModel"] true (EC (VBool false)) (* 203 *);
   mkst [] ["ctrl"; "ad"] true (EC VObj) (* 207 *);
   mkst [] ["ctrl"; "ad"; "maxiter"] true (EC (VInt 30)) (* 209 *);
   mkst [] ["ctrl"; "ad"; "maxfun"] true (EC (VInt 1000000)) (* 211 *);
   mkst [] ["ctrl"; "ad"; "maxcor"] true (EC (VInt 10)) (* 213 *);
   mkst [] ["flagFiber"] true (EC (VBool false)) (* 217 *);
   mkst [] ["flagLenslet"] true (EC (VBool false)) (* 219 *);
   mkst [] ["flagDMwfe"] true (EC (VBool false)) (* 221 *);
   mkst [] ["flagApod"] true (EC (VBool false)) (* 225 *);
   mkst [] ["runLabel"] true (EC (VStr "default_label_")) (* 229 *);
   mkst [] ["star"; "count"] true (EC (VInt 1)) (* 235 *);
   mkst [] ["star"; "xiOffsetVec"] true (EC (VList [VInt 0])) (* 237 *);
   mkst [] ["star"; "etaOffsetVec"] true (EC (VList [VInt 0])) (* 239 *);
   mkst [] ["star"; "weights"] true (EC (VList [VInt 1])) (* 241 *);
   mkst [] ["compact"; "star"; "count"] true (EC (VInt 1)) (* 243 *);
   mkst [] ["compact"; "star"; "xiOffsetVec"] true (EC (VList [VInt 0])) (* 245 *);
   mkst [] ["compact"; "star"; "etaOffsetVec"] true (EC (VList [VInt 0])) (* 247 *);
   mkst [] ["compact"; "star"; "weights"] true (EC (VList [VInt 1])) (* 249 *);
   mkst [] ["jac"; "star"; "weights"] true (EOnes 1 ["compact"; "star"; "count"]) (* 252 *);
   mkst [] ["full"; "pol_conds"] true (EC (VArr [0])) (* 255 *);
   mkst [] ["propMethodPTP"] true (EC (VStr "fft")) (* 259 *);
   mkst [] ["jac"; "mftToVortex"] true (EC (VBool false)) (* 263 *);
   mkst [] ["F3"; "VortexSpotDiam"] true (EC (VInt 0)) (* 265 *);
   mkst [] ["F3"; "VortexSpotOffsets"] true (EC (VList [VInt 0; VInt 0])) (* 267 *);
   mkst [] ["F3"; "phaseMaskType"] true (EC (VStr "vortex")) (* 269 *);
   mkst [] ["F3"; "NstepStaircase"] true (EC (VInt 6)) (* 271 *);
   mkst [] ["F3"; "clocking"] true (EC (VInt 0)) (* 273 *);
   mkst [] ["F3"; "phaseScaleFac"] true (EC (VInt 1)) (* 275 *);
   mkst [] ["full"; "ZrmsVal"] true (EC (VNum (1 / 1000000000))) (* 279 *);
   mkst [] ["full"; "Rsens"] true (EC (VArr [])) (* 281 *);
   mkst [] ["full"; "indsZnoll"] true (EC (VArr [2; 3])) (* 283 *);
   mkst [] ["dm1"] true (EC VObj) (* 287 *);
   mkst [] ["dm2"] true (EC VObj) (* 289 *);
   mkst [] ["dm3"] true (EC VObj) (* 291 *);
   mkst [] ["dm4"] true (EC VObj) (* 293 *);
   mkst [] ["dm5"] true (EC VObj) (* 295 *);
   mkst [] ["dm6"] true (EC VObj) (* 297 *);
   mkst [] ["dm7"] true (EC VObj) (* 299 *);
   mkst [] ["dm8"] true (EC VObj) (* 301 *);
   mkst [] ["dm9"] true (EC VObj) (* 303 *);
   mkst [] ["dm1"; "NactTotal"] false (EC (VInt 0)) (* 306 *);
   mkst [] ["dm2"; "NactTotal"] false (EC (VInt 0)) (* 306 *);
   mkst [] ["dm3"; "NactTotal"] false (EC (VInt 0)) (* 306 *);
   mkst [] ["dm4"; "NactTotal"] false (EC (VInt 0)) (* 306 *);
   mkst [] ["dm5"; "NactTotal"] false (EC (VInt 0)) (* 306 *);
   mkst [] ["dm6"; "NactTotal"] false (EC (VInt 0)) (* 306 *);
   mkst [] ["dm7"; "NactTotal"] false (EC (VInt 0)) (* 306 *);
   mkst [] ["dm8"; "NactTotal"] false (EC (VInt 0)) (* 306 *);
   mkst [] ["dm9"; "NactTotal"] false (EC (VInt 0)) (* 306 *);
   mkst [] ["dm1"; "Nele"] false (EC (VInt 0)) (* 307 *);
   mkst [] ["dm2"; "Nele"] false (EC (VInt 0)) (* 307 *);
   mkst [] ["dm3"; "Nele"] false (EC (VInt 0)) (* 307 *);
   mkst [] ["dm4"; "Nele"] false (EC (VInt 0)) (* 307 *);
   mkst [] ["dm5"; "Nele"] false (EC (VInt 0)) (* 307 *);
   mkst [] ["dm6"; "Nele"] false (EC (VInt 0)) (* 307 *);
   mkst [] ["dm7"; "Nele"] false (EC (VInt 0)) (* 307 *);
   mkst [] ["dm8"; "Nele"] false (EC (VInt 0)) (* 307 *);
   mkst [] ["dm9"; "Nele"] false (EC (VInt 0)) (* 307 *);
   mkst [] ["dm1"; "orientation"] true (EC (VStr "rot0")) (* 312 *);
   mkst [] ["dm1"; "fitType"] true (EC (VStr "linear")) (* 314 *);
   mkst [] ["dm1"; "dead"] true (EC (VList [])) (* 316 *);
   mkst [] ["dm1"; "pinned"] true (EC (VArr [])) (* 318 *);
   mkst [] ["dm1"; "Vpinned"] true (EC (VArr [])) (* 320 *);
   mkst [] ["dm1"; "tied"] true (EC (VMat 0 2 0)) (* 322 *);
   mkst [GTrue ["flagSim"] true] ["dm1"; "Vmin"] true (EC (VNum (0))) (* 325 *);
   mkst [GTrue ["flagSim"] true] ["dm1"; "Vmax"] true (EC (VNum (1000))) (* 327 *);
   mkst [GTrue ["flagSim"] false] ["dm1"; "Vmin"] true (EC (VNum (0))) (* 330 *);
   mkst [GTrue ["flagSim"] false] ["dm1"; "Vmax"] true (EC (VNum (100))) (* 332 *);
   mkst [] ["dm1"; "dVnbrLat"] true (EGet ["dm1"; "Vmax"]) (* 334 *);
   mkst [] ["dm1"; "dVnbrDiag"] true (EGet ["dm1"; "Vmax"]) (* 336 *);
   mkst [] ["dm1"; "biasMap"] true (EHalf ["dm1"; "Vmax"] ["dm1"; "Nact"]) (* 338 *);
   mkst [] ["dm1"; "facesheetFlatmap"] true (EGet ["dm1"; "biasMap"]) (* 340 *);
   mkst [] ["dm1"; "surfFitMethod"] true (EC (VStr "lsq")) (* 342 *);
   mkst [] ["dm1"; "useDifferentiableModel"] true (EC (VBool false)) (* 344 *);
   mkst [] ["dm2"; "orientation"] true (EC (VStr "rot0")) (* 348 *);
   mkst [] ["dm2"; "fitType"] true (EC (VStr "linear")) (* 350 *);
   mkst [] ["dm2"; "dead"] true (EC (VList [])) (* 352 *);
   mkst [] ["dm2"; "pinned"] true (EC (VArr [])) (* 354 *);
   mkst [] ["dm2"; "Vpinned"] true (EC (VArr [])) (* 356 *);
   mkst [] ["dm2"; "tied"] true (EC (VMat 0 2 0)) (* 358 *);
   mkst [GTrue ["flagSim"] true] ["dm2"; "Vmin"] true (EC (VNum (0))) (* 361 *);
   mkst [GTrue ["flagSim"] true] ["dm2"; "Vmax"] true (EC (VNum (1000))) (* 363 *);
   mkst [GTrue ["flagSim"] false] ["dm2"; "Vmin"] true (EC (VNum (0))) (* 366 *);
   mkst [GTrue ["flagSim"] false] ["dm2"; "Vmax"] true (EC (VNum (100))) (* 368 *);
   mkst [] ["dm2"; "dVnbrLat"] true (EGet ["dm2"; "Vmax"]) (* 370 *);
   mkst [] ["dm2"; "dVnbrDiag"] true (EGet ["dm2"; "Vmax"]) (* 372 *);
   mkst [] ["dm2"; "biasMap"] true (EHalf ["dm2"; "Vmax"] ["dm2"; "Nact"]) (* 374 *);
   mkst [] ["dm2"; "facesheetFlatmap"] true (EGet ["dm2"; "biasMap"]) (* 376 *);
   mkst [] ["dm2"; "surfFitMethod"] true (EC (VStr "lsq")) (* 378 *);
   mkst [] ["dm2"; "useDifferentiableModel"] true (EC (VBool false)) (* 380 *);
   mkst [GHas ["dm8"]; GHas ["dm8"; "V"]] ["DM8V0"] false (EGet ["dm8"; "V"]) (* 386 *);
   mkst [GHas ["dm8"]; GHas ["dm9"; "V"]] ["DM9V0"] false (EGet ["dm9"; "V"]) (* 388 *);
   mkst [GUsed 1] ["dm1"; "dV"] false (EC (VInt 0)) (* 393 *);
   mkst [GUsed 2] ["dm2"; "dV"] false (EC (VInt 0)) (* 395 *);
   mkst [GUsed 3] ["dm3"; "dV"] false (EC (VInt 0)) (* 397 *);
   mkst [GUsed 4] ["dm4"; "dV"] false (EC (VInt 0)) (* 399 *);
   mkst [GUsed 5] ["dm5"; "dV"] false (EC (VInt 0)) (* 401 *);
   mkst [GUsed 6] ["dm6"; "dV"] false (EC (VInt 0)) (* 403 *);
   mkst [GUsed 7] ["dm7"; "dV"] false (EC (VInt 0)) (* 405 *);
   mkst [GUsed 8] ["dm8"; "dV"] false (EC (VInt 0)) (* 407 *);
   mkst [GUsed 9] ["dm9"; "dV"] false (EC (VInt 0)) (* 409 *);
   mkst [] ["flagImageNoise"] true (EC (VBool false)) (* 414 *);
   mkst [] ["detector"; "gain"] true (EC (VNum (1))) (* 416 *);
   mkst [] ["detector"; "darkCurrentRate"] true (EC (VNum (3 / 200))) (* 418 *);
   mkst [] ["detector"; "readNoiseStd"] true (EC (VNum (17 / 10))) (* 420 *);
   mkst [] ["detector"; "wellDepth"] true (EC (VNum (30000))) (* 422 *);
   mkst [] ["detector"; "peakFluxVec"] true (EOnes 100000000 ["Nsbp"]) (* 424 *);
   mkst [] ["detector"; "tExpVec"] true (EOnes 1 ["Nsbp"]) (* 426 *);
   mkst [] ["detector"; "Nexp"] true (EC (VInt 1)) (* 428 *);
   mkst [] ["WspatialDef"] true (EC (VArr [])) (* 432 *);
   mkst [] ["jac"; "minimizeNI"] true (EC (VBool false)) (* 434 *);
   mkst [] ["jac"; "zerns"] true (EC (VArr [1])) (* 436 *);
   mkst [] ["jac"; "Zcoef"] true (EC (VArr [1])) (* 438 *);
   mkst [] ["est"; "probeSchedule"] true (EC VSched) (* 442 *);
   mkst [] ["est"; "InormProbeMax"] true (EC (VNum (1 / 10000))) (* 444 *);
   mkst [] ["est"; "Ithreshold"] true (EC (VNum (1 / 100))) (* 446 *);
   mkst [] ["mas2lam0D"] false (EMas) (* 450 *);
   mkst [] ["Fend"; "eval"] true (EC VObj) (* 452 *);
   mkst [] ["Fend"; "eval"; "res"] true (EC (VInt 10)) (* 454 *);
   mkst [] ["P1"; "IDnorm"] true (EC (VNum (0))) (* 458 *)
  ].

(* falco/setup.py:120-460 *)
Definition set_optional_variables (falcohome : string) (cpus : Z) (s : store) : res store :=
  exec_all s (program falcohome cpus).
