(** GENERATED by tools/gen_syntax.py from /repo/geotecha/inputoutput/inputoutput.py: the word lists of
    SyntaxChecker.  A word starting with # is left out ([a for a in s.split() if not a.startswith("#")]). *)
From Coq Require Import String List.
Import ListNotations.
Open Scope string_scope.

(** allow_ast :259-289, nodes *)
Definition ast_nodes : list string := [
  "Add"; "And"; "Assert"; "Assign"; "Attribute"; "AugAssign"; "AugLoad"; "AugStore"; "BinOp";
  "BitAnd"; "BitOr"; "BitXor"; "BoolOp"; "Break"; "Call"; "Compare"; "Continue"; "Del"; "Delete";
  "Dict"; "DictComp"; "Div"; "Ellipsis"; "Eq"; "ExceptHandler"; "Expr"; "Expression"; "ExtSlice";
  "FloorDiv"; "For"; "FunctionDef"; "GeneratorExp"; "Global"; "Gt"; "GtE"; "If"; "IfExp"; "In";
  "Index"; "Interactive"; "Invert"; "Is"; "IsNot"; "LShift"; "Lambda"; "List"; "ListComp"; "Load";
  "Lt"; "LtE"; "Mod"; "Module"; "Mult"; "Name"; "Not"; "NotEq"; "NotIn"; "Num"; "Or"; "Param";
  "Pass"; "Pow"; "Print"; "RShift"; "Raise"; "Repr"; "Return"; "Set"; "SetComp"; "Slice"; "Store";
  "Str"; "Sub"; "Subscript"; "Suite"; "TryExcept"; "TryFinally"; "Tuple"; "UAdd"; "USub";
  "UnaryOp"; "While"; "With"; "Yield"; "arguments"; "boolop"; "comprehension"; "keyword"; "slice";
  "Bytes"; "NameConstant"; "Starred"; "Try"; "YieldFrom"; "arg"; "withitem"].

(** allow_builtin :291-404, functions *)
Definition builtin_functions : list string := [
  "abs"; "all"; "any"; "apply"; "bin"; "chr"; "cmp"; "compile"; "divmod"; "filter"; "format";
  "hasattr"; "hex"; "id"; "input"; "isinstance"; "issubclass"; "iter"; "len"; "locals"; "map";
  "max"; "min"; "next"; "oct"; "ord"; "pow"; "print"; "range"; "raw_input"; "reduce"; "repr";
  "round"; "sorted"; "sum"; "unichr"; "zip"; "ascii"; "basestring"; "bool"; "bytearray"; "bytes";
  "complex"; "dict"; "enumerate"; "float"; "frozenset"; "int"; "list"; "long"; "reversed"; "set";
  "slice"; "str"; "super"; "tuple"; "type"; "unicode"; "xrange"].

(** allow_builtin :291-404, attributes *)
Definition builtin_attributes : list string := [
  "conjugate"; "copy"; "fromkeys"; "get"; "has_key"; "items"; "iteritems"; "iterkeys";
  "itervalues"; "keys"; "pop"; "popitem"; "setdefault"; "update"; "values"; "viewitems";
  "viewkeys"; "viewvalues"; "clear"; "append"; "count"; "extend"; "index"; "insert"; "remove";
  "reverse"; "sort"; "capitalize"; "center"; "decode"; "encode"; "endswith"; "expandtabs"; "find";
  "format"; "isalnum"; "isalpha"; "isdigit"; "islower"; "isspace"; "istitle"; "isupper"; "join";
  "ljust"; "lower"; "lstrip"; "partition"; "replace"; "rfind"; "rindex"; "rjust"; "rpartition";
  "rsplit"; "rstrip"; "split"; "splitlines"; "startswith"; "strip"; "swapcase"; "title";
  "translate"; "upper"; "zfill"; "casefold"; "format_map"; "isdecimal"; "isidentifier";
  "isnumeric"; "isprintable"; "maketrans"; "as_integer_ratio"; "fromhex"; "hex"; "is_integer";
  "add"; "difference"; "difference_update"; "discard"; "intersection"; "intersection_update";
  "isdisjoint"; "issubset"; "issuperset"; "symmetric_difference"; "symmetric_difference_update";
  "union"; "indices"].

(** allow_numpy :406-502, functions *)
Definition numpy_functions : list string := [
  "np"; "numpy"].

(** allow_numpy :406-502, attributes *)
Definition numpy_attributes : list string := [
  "add_docstring"; "add_newdoc"; "add_newdoc_ufunc"; "alen"; "all"; "allclose"; "alltrue";
  "alterdot"; "amax"; "amin"; "angle"; "any"; "append"; "apply_along_axis"; "apply_over_axes";
  "arange"; "argmax"; "argmin"; "argpartition"; "argsort"; "argwhere"; "around"; "array";
  "array2string"; "array_equal"; "array_equiv"; "array_repr"; "array_split"; "array_str";
  "asanyarray"; "asarray"; "asarray_chkfinite"; "ascontiguousarray"; "asfarray"; "asfortranarray";
  "asmatrix"; "asscalar"; "atleast_1d"; "atleast_2d"; "atleast_3d"; "average"; "bartlett";
  "base_repr"; "bench"; "binary_repr"; "bincount"; "blackman"; "bmat"; "broadcast_arrays";
  "busday_count"; "busday_offset"; "byte_bounds"; "can_cast"; "choose"; "clip"; "column_stack";
  "common_type"; "compare_chararrays"; "compress"; "concatenate"; "convolve"; "copy"; "copyto";
  "corrcoef"; "correlate"; "count_nonzero"; "cov"; "cross"; "cumprod"; "cumproduct"; "cumsum";
  "datetime_as_string"; "datetime_data"; "delete"; "deprecate"; "deprecate_with_doc"; "diag";
  "diag_indices"; "diag_indices_from"; "diagflat"; "diagonal"; "diff"; "digitize"; "disp"; "dot";
  "dsplit"; "dstack"; "ediff1d"; "einsum"; "empty"; "empty_like"; "expand_dims"; "extract"; "eye";
  "fastCopyAndTranspose"; "fill_diagonal"; "find_common_type"; "fix"; "flatnonzero"; "fliplr";
  "flipud"; "frombuffer"; "fromfile"; "fromfunction"; "fromiter"; "frompyfunc"; "fromregex";
  "fromstring"; "full"; "full_like"; "fv"; "genfromtxt"; "get_array_wrap"; "get_include";
  "get_printoptions"; "getbuffer"; "getbufsize"; "geterr"; "geterrcall"; "geterrobj"; "gradient";
  "hamming"; "hanning"; "histogram"; "histogram2d"; "histogramdd"; "hsplit"; "hstack"; "i0";
  "identity"; "imag"; "in1d"; "indices"; "info"; "inner"; "insert"; "int_asbuffer"; "interp";
  "intersect1d"; "ipmt"; "irr"; "is_busday"; "isclose"; "iscomplex"; "iscomplexobj"; "isfortran";
  "isneginf"; "isposinf"; "isreal"; "isrealobj"; "isscalar"; "issctype"; "issubclass_";
  "issubdtype"; "issubsctype"; "iterable"; "ix_"; "kaiser"; "kron"; "lexsort"; "linspace"; "load";
  "loads"; "loadtxt"; "logspace"; "lookfor"; "mafromtxt"; "mask_indices"; "mat"; "max";
  "maximum_sctype"; "may_share_memory"; "mean"; "median"; "meshgrid"; "min"; "min_scalar_type";
  "mintypecode"; "mirr"; "msort"; "nan_to_num"; "nanargmax"; "nanargmin"; "nanmax"; "nanmean";
  "nanmedian"; "nanmin"; "nanpercentile"; "nanstd"; "nansum"; "nanvar"; "ndfromtxt"; "ndim";
  "nested_iters"; "newbuffer"; "nonzero"; "nper"; "npv"; "obj2sctype"; "ones"; "ones_like";
  "outer"; "packbits"; "pad"; "partition"; "percentile"; "piecewise"; "pkgload"; "place"; "pmt";
  "poly"; "polyadd"; "polyder"; "polydiv"; "polyfit"; "polyint"; "polymul"; "polysub"; "polyval";
  "ppmt"; "prod"; "product"; "promote_types"; "ptp"; "put"; "putmask"; "pv"; "rank"; "rate";
  "ravel"; "ravel_multi_index"; "real"; "real_if_close"; "recfromcsv"; "recfromtxt"; "repeat";
  "require"; "reshape"; "resize"; "restoredot"; "result_type"; "roll"; "rollaxis"; "roots";
  "rot90"; "round"; "round_"; "row_stack"; "safe_eval"; "save"; "savetxt"; "savez";
  "savez_compressed"; "sctype2char"; "searchsorted"; "select"; "set_numeric_ops";
  "set_printoptions"; "set_string_function"; "setbufsize"; "setdiff1d"; "seterr"; "seterrcall";
  "seterrobj"; "setxor1d"; "shape"; "show_config"; "sinc"; "size"; "sometrue"; "sort";
  "sort_complex"; "source"; "split"; "squeeze"; "std"; "sum"; "swapaxes"; "take"; "tensordot";
  "test"; "tile"; "trace"; "transpose"; "trapz"; "tri"; "tril"; "tril_indices";
  "tril_indices_from"; "trim_zeros"; "triu"; "triu_indices"; "triu_indices_from"; "typename";
  "union1d"; "unique"; "unpackbits"; "unravel_index"; "unwrap"; "vander"; "var"; "vdot"; "vsplit";
  "vstack"; "where"; "who"; "zeros"; "zeros_like"; "pi"; "astype"; "byteswap"; "conj"; "conjugate";
  "dump"; "dumps"; "fill"; "flatten"; "getfield"; "item"; "itemset"; "newbyteorder"; "setfield";
  "setflags"; "tobytes"; "tofile"; "tolist"; "tostring"; "view"; "math"; "acos"; "acosh"; "asin";
  "asinh"; "atan"; "atan2"; "atanh"; "ceil"; "copysign"; "cos"; "cosh"; "degrees"; "erf"; "erfc";
  "exp"; "expm1"; "fabs"; "factorial"; "floor"; "fmod"; "frexp"; "fsum"; "gamma"; "hypot";
  "isfinite"; "isinf"; "isnan"; "ldexp"; "lgamma"; "log"; "log10"; "log1p"; "log2"; "modf"; "pow";
  "radians"; "sin"; "sinh"; "sqrt"; "tan"; "tanh"; "trunc"; "abs"; "absolute"; "add"; "arccos";
  "arccosh"; "arcsin"; "arcsinh"; "arctan"; "arctan2"; "arctanh"; "bitwise_and"; "bitwise_not";
  "bitwise_or"; "bitwise_xor"; "deg2rad"; "divide"; "equal"; "exp2"; "floor_divide"; "fmax";
  "fmin"; "greater"; "greater_equal"; "invert"; "left_shift"; "less"; "less_equal"; "logaddexp";
  "logaddexp2"; "logical_and"; "logical_not"; "logical_or"; "logical_xor"; "maximum"; "minimum";
  "mod"; "multiply"; "negative"; "nextafter"; "not_equal"; "power"; "rad2deg"; "reciprocal";
  "remainder"; "right_shift"; "rint"; "sign"; "signbit"; "spacing"; "square"; "subtract";
  "true_divide"].

(** allow_PolyLine :509-518, functions *)
Definition PolyLine_functions : list string := [
  "PolyLine"].

(** allow_PolyLine :509-518, attributes *)
Definition PolyLine_attributes : list string := [
  "x"; "y"; "xy"; "x1"; "x2"; "y1"; "y2"; "x1_x2_y1_y2"].
