(** The four command line scripts (scripts/*.py): each sends one request to the
    configure service and waits for the answer.

    Simplifications: the scripts wait until the service exists (lines 14-15, 17-18),
    so only the request matters; a map file is represented by the messages it holds,
    as in EvConfigure; the file name of save_map.py is where the messages of the
    ObSave entry go. *)

From Coq Require Import ZArith List.
From Verif Require Import Outcome Arith TypesModel GraphModel MapperModel.
Import ListNotations.

Inductive script : Set := EnableMapping | DisableMapping | LoadMap | SaveMap.

(** enable_mapping.py:19, disable_mapping.py:19, load_map.py:21, save_map.py:21. *)
Definition script_action (s : script) : Z :=
  match s with
  | EnableMapping => ENABLE_MAPPING
  | DisableMapping => DISABLE_MAPPING
  | LoadMap => LOAD_FROM_FILE
  | SaveMap => SAVE_TO_FILE
  end.

(** The request that is sent, given what the first command line argument names.
    load_map.py:22, save_map.py:22: sys.argv[1] raises IndexError before the call
    when there is no argument; the other two scripts do not look at arguments and
    leave the file name empty. *)
Definition script_request {T} (s : script) (arg : option (list (bag_msg T))) : option (event T) :=
  match s, arg with
  | EnableMapping, _ | DisableMapping, _ => Some (EvConfigure (script_action s) [])
  | LoadMap, Some file | SaveMap, Some file => Some (EvConfigure (script_action s) file)
  | LoadMap, None | SaveMap, None => None
  end.
