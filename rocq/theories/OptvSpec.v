(* What a user of falco is told about the optional parameters: which attributes are reset whatever
   the script says, which get a fixed default when the script leaves them out, and what a script
   must provide.  Written from the parameter documentation, independently of the interpreter. *)
From Verif Require Import Base StrBase RBase OptvModel.
From Coq Require Import String.
Local Open Scope string_scope.

Definition dms : list string := ["dm1"; "dm2"; "dm3"; "dm4"; "dm5"; "dm6"; "dm7"; "dm8"; "dm9"].

(* attributes that the toolbox owns: a value given by the script is discarded *)
Definition owned : list path :=
  [["path"; "falco"]; ["mas2lam0D"]; ["DM8V0"]; ["DM9V0"]] ++
  map (fun d => [d; "NactTotal"]) dms ++ map (fun d => [d; "Nele"]) dms ++ map (fun d => [d; "dV"]) dms.

(* the sub-structures created when missing *)
Definition created : list path :=
  [["compact"]; ["full"]; ["jac"]; ["est"]; ["est"; "probe"]; ["detector"]; ["star"]; ["compact"; "star"];
   ["path"]; ["jac"; "star"]; ["ctrl"; "ad"]; ["Fend"; "eval"]] ++ map (fun d => [d]) dms.

(* options off by default *)
Definition off_by_default : list path :=
  [["flagParallel"]; ["flagSaveWS"]; ["flagSVD"]; ["full"; "flagPROPER"]; ["flagTrainModel"];
   ["flagUseLearnedJac"]; ["est"; "flagUseJac"]; ["ctrl"; "flagUseModel"]; ["flagFiber"]; ["flagLenslet"];
   ["flagDMwfe"]; ["flagApod"]; ["jac"; "mftToVortex"]; ["flagImageNoise"]; ["jac"; "minimizeNI"];
   ["dm1"; "useDifferentiableModel"]; ["dm2"; "useDifferentiableModel"]].

(* defaults that depend on nothing else *)
Definition fixed_defaults (cpus : Z) : list (path * value) :=
  map (fun p => (p, VObj)) created ++
  map (fun p => (p, VBool false)) off_by_default ++
  [(["flagRotation"], VBool true);
   (["Nthreads"], VInt cpus);
   (* Kalman filter start; L-BFGS options of the AD-EFC controller *)
   (["est"; "ItrStartKF"], VInt 2);
   (["ctrl"; "ad"; "maxiter"], VInt 30); (["ctrl"; "ad"; "maxfun"], VInt 1000000); (["ctrl"; "ad"; "maxcor"], VInt 10);
   (["runLabel"], VStr "default_label_"); (["propMethodPTP"], VStr "fft");
   (* one on-axis star of weight 1, in both models *)
   (["star"; "count"], VInt 1); (["star"; "weights"], VList [VInt 1]);
   (["star"; "xiOffsetVec"], VList [VInt 0]); (["star"; "etaOffsetVec"], VList [VInt 0]);
   (["compact"; "star"; "count"], VInt 1); (["compact"; "star"; "weights"], VList [VInt 1]);
   (["compact"; "star"; "xiOffsetVec"], VList [VInt 0]); (["compact"; "star"; "etaOffsetVec"], VList [VInt 0]);
   (* unpolarised *)
   (["full"; "pol_conds"], VArr [0]);
   (* focal-plane phase mask: a plain vortex without a central spot *)
   (["F3"; "phaseMaskType"], VStr "vortex"); (["F3"; "VortexSpotDiam"], VInt 0);
   (["F3"; "VortexSpotOffsets"], VList [VInt 0; VInt 0]); (["F3"; "NstepStaircase"], VInt 6);
   (["F3"; "clocking"], VInt 0); (["F3"; "phaseScaleFac"], VInt 1);
   (* Zernike sensitivities: 1 nm RMS of tip and tilt, over no annulus *)
   (["full"; "ZrmsVal"], VNum (1 / 1000000000)); (["full"; "Rsens"], VArr []); (["full"; "indsZnoll"], VArr [2; 3]);
   (* detector: gain 1 e-/count, dark current 0.015 e-/s, read noise 1.7 e-, well depth 30000 e- *)
   (["detector"; "gain"], VNum 1); (["detector"; "darkCurrentRate"], VNum (15 / 1000));
   (["detector"; "readNoiseStd"], VNum (17 / 10)); (["detector"; "wellDepth"], VNum 30000); (["detector"; "Nexp"], VInt 1);
   (* control: piston only, no spatial weighting *)
   (["WspatialDef"], VArr []); (["jac"; "zerns"], VArr [1]); (["jac"; "Zcoef"], VArr [1]);
   (* estimation *)
   (["est"; "probeSchedule"], VSched); (["est"; "InormProbeMax"], VNum (1 / 10000)); (["est"; "Ithreshold"], VNum (1 / 100));
   (["Fend"; "eval"; "res"], VInt 10); (["P1"; "IDnorm"], VNum 0)] ++
  flat_map (fun d =>
    [([d; "orientation"], VStr "rot0"); ([d; "fitType"], VStr "linear"); ([d; "surfFitMethod"], VStr "lsq");
     ([d; "dead"], VList []); ([d; "pinned"], VArr []); ([d; "Vpinned"], VArr []); ([d; "tied"], VMat 0 2 0)])
    ["dm1"; "dm2"].

(* defaults computed from other parameters *)
Definition derived : list path :=
  [["path"; "brief"]; ["path"; "config"]; ["path"; "ws"]; ["path"; "jac"]; ["jac"; "star"; "weights"];
   ["detector"; "peakFluxVec"]; ["detector"; "tExpVec"]] ++
  flat_map (fun d => [[d; "Vmin"]; [d; "Vmax"]; [d; "dVnbrLat"]; [d; "dVnbrDiag"]; [d; "biasMap"]; [d; "facesheetFlatmap"]])
    ["dm1"; "dm2"].

(* an acceptable script: sub-structures are objects, the parameters used in arithmetic are numbers *)
Inductive kind := Object | Yes_no | Count | Number | Nonzero.
Definition of_kind (k : kind) (v : value) : Prop :=
  match k with
  | Object => v = VObj
  | Yes_no => exists b, v = VBool b
  | Count => exists n, v = VInt n /\ (0 <= n)%Z
  | Number => exists x, v = VNum x \/ exists n, v = VInt n /\ x = IZR n
  | Nonzero => exists x, x <> 0 /\ (v = VNum x \/ exists n, v = VInt n /\ x = IZR n)
  end.
Definition must_be : list (path * kind) :=
  [(["ctrl"], Object); (["F3"], Object); (["Fend"], Object); (["P1"], Object);
   (["flagSim"], Yes_no); (["Nsbp"], Count); (["dm1"; "Nact"], Count); (["dm2"; "Nact"], Count);
   (["lambda0"], Nonzero); (["P1"; "D"], Nonzero)].
Definition if_given : list (path * kind) :=
  map (fun p => (p, Object)) created ++
  [(["compact"; "star"; "count"], Count); (["dm1"; "Vmax"], Number); (["dm2"; "Vmax"], Number)].
Definition acceptable (s : store) : Prop :=
  (forall p k, In (p, k) must_be -> exists v, s p = Some v /\ of_kind k v) /\
  (exists v, s ["dm_ind"] = Some v) /\
  (forall p k v, In (p, k) if_given -> s p = Some v -> of_kind k v).
