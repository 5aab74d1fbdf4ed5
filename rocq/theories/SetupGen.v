(** GENERATED by tools/gen_setup.py from the _setup methods: which attributes an input file may set and
    which combinations are checked.  A table the class does not define is the empty list
    (getattr(self, ..., []), inputoutput.py :1494-1504). *)
From Coq Require Import String List.
Import ListNotations.
Open Scope string_scope.

Record setup := mkSetup {
  attributes : list string;
  should_be_lists : list string;
  same_x_limits : list (list string);
  same_len_pairs : list (list string);
  force_same_len : list (list string);
  zero_or_all : list (list string);
  at_least_one : list (list string);
  one_implies_others : list (list string) }.

(** speccon/speccon1d_vr.py: Speccon1dVR._setup :489-569 *)
Definition Speccon1dVR_setup : setup := mkSetup
  ["H"; "drn"; "dT"; "neig"; "mvref"; "kvref"; "khref"; "etref"; "dTh"; "dTv"; "mv"; "kh"; "kv"; "et"; "surcharge_vs_depth"; "surcharge_vs_time"; "vacuum_vs_depth"; "vacuum_vs_time"; "top_vs_time"; "bot_vs_time"; "ppress_z"; "avg_ppress_z_pairs"; "settlement_z_pairs"; "tvals"; "implementation"; "ppress_z_tval_indexes"; "avg_ppress_z_pairs_tval_indexes"; "settlement_z_pairs_tval_indexes"; "fixed_ppress"; "surcharge_omega_phase"; "vacuum_omega_phase"; "fixed_ppress_omega_phase"; "top_omega_phase"; "bot_omega_phase"; "pumping"; "pumping_omega_phase"; "RLzero"; "prefix"]
  ["surcharge_vs_depth"; "surcharge_vs_time"; "surcharge_omega_phase"; "vacuum_vs_depth"; "vacuum_vs_time"; "vacuum_omega_phase"; "top_vs_time"; "top_omega_phase"; "bot_vs_time"; "bot_omega_phase"; "fixed_ppress"; "fixed_ppress_omega_phase"; "pumping"; "pumping_omega_phase"]
  [["mv"; "kv"; "kh"; "et"; "surcharge_vs_depth"; "vacuum_vs_depth"]]
  [["surcharge_vs_depth"; "surcharge_vs_time"]; ["surcharge_vs_time"; "surcharge_omega_phase"]; ["vacuum_vs_depth"; "vacuum_vs_time"]; ["vacuum_vs_time"; "vacuum_omega_phase"]; ["top_vs_time"; "top_omega_phase"]; ["bot_vs_time"; "bot_omega_phase"]; ["fixed_ppress_omega_phase"; "fixed_ppress"]; ["pumping"; "pumping_omega_phase"]]
  [["surcharge_vs_time"; "surcharge_omega_phase"]; ["vacuum_vs_time"; "vacuum_omega_phase"]; ["fixed_ppress"; "fixed_ppress_omega_phase"]; ["top_vs_time"; "top_omega_phase"]; ["bot_vs_time"; "bot_omega_phase"]; ["pumping"; "pumping_omega_phase"]]
  [["dTh"; "kh"; "et"]; ["dTv"; "kv"]; ["surcharge_vs_depth"; "surcharge_vs_time"]; ["vacuum_vs_depth"; "vacuum_vs_time"]]
  [["mv"]; ["dTh"; "dTv"]; ["kh"; "kv"]; ["surcharge_vs_time"; "vacuum_vs_time"; "top_vs_time"; "bot_vs_time"; "fixed_ppress"; "pumping"]; ["tvals"]; ["ppress_z"; "avg_ppress_z_pairs"; "settlement_z_pairs"]]
  [["vacuum_vs_time"; "dTh"; "kh"; "et"]; ["vacuum_vs_depth"; "dTh"; "kh"; "et"]; ["surcharge_omega_phase"; "surcharge_vs_depth"; "surcharge_vs_time"]; ["vacuum_omega_phase"; "vacuum_vs_depth"; "vacuum_vs_time"]; ["fixed_ppress_omega_phase"; "fixed_ppress"]; ["top_omega_phase"; "top_vs_time"]; ["bot_omega_phase"; "bot_vs_time"]; ["pumping_omega_phase"; "pumping"]].

(** speccon/speccon1d_vrc.py: Speccon1dVRC._setup :522-595 *)
Definition Speccon1dVRC_setup : setup := mkSetup
  ["H"; "drn"; "dT"; "neig"; "n"; "mvref"; "kvref"; "kvcref"; "khref"; "khcref"; "etref"; "dTh"; "dTv"; "dTvc"; "dThc"; "mv"; "kh"; "kv"; "et"; "khc"; "kvc"; "surcharge_vs_depth"; "surcharge_vs_time"; "top_vs_time"; "bot_vs_time"; "ppress_z"; "avg_ppress_z_pairs"; "settlement_z_pairs"; "tvals"; "implementation"; "ppress_z_tval_indexes"; "avg_ppress_z_pairs_tval_indexes"; "settlement_z_pairs_tval_indexes"; "surcharge_omega_phase"; "top_omega_phase"; "bot_omega_phase"; "RLzero"; "prefix"]
  ["surcharge_vs_depth"; "surcharge_vs_time"; "surcharge_omega_phase"; "top_vs_time"; "top_omega_phase"; "bot_vs_time"; "bot_omega_phase"]
  [["mv"; "kv"; "kh"; "kvc"; "khc"; "et"; "surcharge_vs_depth"]]
  [["surcharge_vs_depth"; "surcharge_vs_time"]; ["surcharge_vs_time"; "surcharge_omega_phase"]; ["top_vs_time"; "top_omega_phase"]; ["bot_vs_time"; "bot_omega_phase"]]
  [["surcharge_vs_time"; "surcharge_omega_phase"]; ["top_vs_time"; "top_omega_phase"]; ["bot_vs_time"; "bot_omega_phase"]]
  [["dTv"; "kv"]; ["surcharge_vs_depth"; "surcharge_vs_time"]]
  [["dTh"]; ["dThc"]; ["dTvc"]; ["dTv"]; ["mv"]; ["n"]; ["surcharge_vs_time"; "top_vs_time"; "bot_vs_time"]; ["tvals"]; ["ppress_z"; "avg_ppress_z_pairs"; "settlement_z_pairs"]]
  [["surcharge_omega_phase"; "surcharge_vs_depth"; "surcharge_vs_time"]; ["top_omega_phase"; "top_vs_time"]; ["bot_omega_phase"; "bot_vs_time"]; ["dTh"; "kh"; "et"]; ["dThc"; "khc"]; ["dTvc"; "kvc"; "et"]; ["dTv"; "kv"]].

(** speccon/speccon1d_vrw.py: Speccon1dVRW._setup :510-584 *)
Definition Speccon1dVRW_setup : setup := mkSetup
  ["H"; "drn"; "dT"; "neig"; "mvref"; "kvref"; "khref"; "etref"; "dTh"; "dTv"; "dTw"; "mv"; "kh"; "kv"; "kw"; "et"; "surcharge_vs_depth"; "surcharge_vs_time"; "top_vs_time"; "bot_vs_time"; "ppress_z"; "avg_ppress_z_pairs"; "settlement_z_pairs"; "tvals"; "implementation"; "ppress_z_tval_indexes"; "avg_ppress_z_pairs_tval_indexes"; "settlement_z_pairs_tval_indexes"; "fixed_ppress"; "surcharge_omega_phase"; "fixed_ppress_omega_phase"; "top_omega_phase"; "bot_omega_phase"; "pumping"; "pumping_omega_phase"; "RLzero"; "prefix"]
  ["surcharge_vs_depth"; "surcharge_vs_time"; "surcharge_omega_phase"; "top_vs_time"; "top_omega_phase"; "bot_vs_time"; "bot_omega_phase"; "fixed_ppress"; "fixed_ppress_omega_phase"; "pumping"; "pumping_omega_phase"]
  [["mv"; "kv"; "kh"; "kw"; "et"; "surcharge_vs_depth"]]
  [["surcharge_vs_depth"; "surcharge_vs_time"]; ["surcharge_vs_time"; "surcharge_omega_phase"]; ["top_vs_time"; "top_omega_phase"]; ["bot_vs_time"; "bot_omega_phase"]; ["fixed_ppress_omega_phase"; "fixed_ppress"]; ["pumping"; "pumping_omega_phase"]]
  [["surcharge_vs_time"; "surcharge_omega_phase"]; ["fixed_ppress"; "fixed_ppress_omega_phase"]; ["top_vs_time"; "top_omega_phase"]; ["bot_vs_time"; "bot_omega_phase"]; ["pumping"; "pumping_omega_phase"]]
  [["dTv"; "kv"]; ["surcharge_vs_depth"; "surcharge_vs_time"]]
  [["dTh"]; ["dTw"]; ["mv"]; ["surcharge_vs_time"; "top_vs_time"; "bot_vs_time"; "fixed_ppress"; "pumping"]; ["tvals"]; ["ppress_z"; "avg_ppress_z_pairs"; "settlement_z_pairs"]]
  [["surcharge_omega_phase"; "surcharge_vs_depth"; "surcharge_vs_time"]; ["fixed_ppress_omega_phase"; "fixed_ppress"]; ["top_omega_phase"; "top_vs_time"]; ["bot_omega_phase"; "bot_vs_time"]; ["pumping_omega_phase"; "pumping"]; ["dTh"; "kh"; "et"]; ["dTw"; "kw"]].

(** speccon/speccon1d_unsat.py: Speccon1dUnsat._setup :511-594 *)
Definition Speccon1dUnsat_setup : setup := mkSetup
  ["H"; "drn"; "dT"; "neig"; "mvref"; "kwref"; "Daref"; "dTw"; "dTa"; "m1ka"; "m1kw"; "m2a"; "m2w"; "kw"; "Da"; "surcharge_vs_depth"; "surcharge_vs_time"; "atop_vs_time"; "abot_vs_time"; "wtop_vs_time"; "wbot_vs_time"; "ppress_z"; "avg_ppress_z_pairs"; "settlement_z_pairs"; "tvals"; "implementation"; "ppress_z_tval_indexes"; "avg_ppress_z_pairs_tval_indexes"; "settlement_z_pairs_tval_indexes"; "surcharge_omega_phase"; "atop_omega_phase"; "abot_omega_phase"; "wtop_omega_phase"; "wbot_omega_phase"; "RLzero"; "prefix"; "plot_properties"; "ua_"; "n"; "S"]
  ["surcharge_vs_depth"; "surcharge_vs_time"; "surcharge_omega_phase"; "atop_vs_time"; "atop_omega_phase"; "abot_vs_time"; "abot_omega_phase"; "wtop_vs_time"; "wtop_omega_phase"; "wbot_vs_time"; "wbot_omega_phase"]
  [["m1ka"; "m1kw"; "m2a"; "m2w"; "kw"; "Da"; "surcharge_vs_depth"; "n"; "S"]]
  [["surcharge_vs_depth"; "surcharge_vs_time"]; ["surcharge_vs_time"; "surcharge_omega_phase"]; ["atop_vs_time"; "atop_omega_phase"]; ["abot_vs_time"; "abot_omega_phase"]; ["wtop_vs_time"; "wtop_omega_phase"]; ["wbot_vs_time"; "wbot_omega_phase"]]
  [["surcharge_vs_time"; "surcharge_omega_phase"]; ["atop_vs_time"; "atop_omega_phase"]; ["abot_vs_time"; "abot_omega_phase"]; ["wtop_vs_time"; "wtop_omega_phase"]; ["wbot_vs_time"; "wbot_omega_phase"]]
  [["surcharge_vs_depth"; "surcharge_vs_time"]]
  [["dTw"]; ["dTa"]; ["m1ka"]; ["m1kw"]; ["m2a"]; ["m2w"]; ["kw"]; ["Da"]; ["n"]; ["S"]; ["surcharge_vs_time"; "atop_vs_time"; "abot_vs_time"; "wtop_vs_time"; "wbot_vs_time"]; ["tvals"]; ["ppress_z"; "avg_ppress_z_pairs"; "settlement_z_pairs"]]
  [["surcharge_omega_phase"; "surcharge_vs_depth"; "surcharge_vs_time"]; ["atop_omega_phase"; "atop_vs_time"]; ["abot_omega_phase"; "abot_vs_time"]; ["wtop_omega_phase"; "wtop_vs_time"]; ["wbot_omega_phase"; "wbot_vs_time"]].

(** consolidation/schiffmanandstein1970.py: SchiffmanAndStein1970._setup :179-216 *)
Definition SchiffmanAndStein1970_setup : setup := mkSetup
  ["z"; "t"; "tpor"; "n"; "h"; "kv"; "mv"; "bctop"; "bcbot"; "htop"; "ktop"; "hbot"; "kbot"; "surcharge_vs_time"; "show_vert_eigs"]
  []
  []
  [["h"; "kv"]; ["kv"; "mv"]; ["h"; "mv"]]
  []
  [["h"; "kv"; "mv"]; ["htop"; "ktop"]; ["hbot"; "kbot"]; ["z"; "t"]]
  [["surcharge_vs_time"]]
  [].

(** consolidation/nogamiandli2003.py: NogamiAndLi2003._setup :255-325 *)
Definition NogamiAndLi2003_setup : setup := mkSetup
  ["z"; "t"; "tpor"; "nv"; "nh"; "h"; "kv"; "kh"; "mv"; "bctop"; "bcbot"; "surcharge_vs_time"; "r0"; "r1"; "rcalc"; "radial_roots_x0"; "radial_roots_dx"; "radial_roots_p"; "vertical_roots_x0"; "vertical_roots_dx"; "vertical_roots_p"; "max_iter"; "show_vert_eigs"]
  []
  []
  [["h"; "kv"]; ["kv"; "mv"]; ["h"; "mv"]; ["h"; "kh"]; ["h"; "kv"]; ["h"; "mv"]]
  []
  [["h"; "kv"; "mv"]; ["r0"; "r1"]]
  [["mv"]; ["surcharge_vs_time"]; ["kv"; "kh"]; ["tpor"; "t"]]
  [["r0"; "r1"; "kh"; "nh"]; ["r1"; "r0"; "kh"; "nh"]; ["kh"; "r0"; "r1"; "nh"]; ["nh"; "kh"; "r0"; "r1"]].
