(** Specification of the attribute names (C16), written down independently of attr.go: the names in the attribute reference
    of Graphviz (without "class", which came later), and four more that gographviz accepts. *)
From Coq Require Import List String.
Import ListNotations.
Local Open Scope string_scope.

Definition documented_names : list string := [
"Damping"; "K"; "URL"; "_background"; "area"; "arrowhead"; "arrowsize"; "arrowtail"; "bb"; "bgcolor"; "center"; "charset"; "clusterrank"; "color";
"colorscheme"; "comment"; "compound"; "concentrate"; "constraint"; "decorate"; "defaultdist"; "dim"; "dimen"; "dir"; "diredgeconstraints";
"distortion"; "dpi"; "edgeURL"; "edgehref"; "edgetarget"; "edgetooltip"; "epsilon"; "esep"; "fillcolor"; "fixedsize"; "fontcolor"; "fontname";
"fontnames"; "fontpath"; "fontsize"; "forcelabels"; "gradientangle"; "group"; "headURL"; "head_lp"; "headclip"; "headhref"; "headlabel"; "headport";
"headtarget"; "headtooltip"; "height"; "href"; "id"; "image"; "imagepath"; "imagepos"; "imagescale"; "inputscale"; "label"; "labelURL";
"label_scheme"; "labelangle"; "labeldistance"; "labelfloat"; "labelfontcolor"; "labelfontname"; "labelfontsize"; "labelhref"; "labeljust"; "labelloc";
"labeltarget"; "labeltooltip"; "landscape"; "layer"; "layerlistsep"; "layers"; "layerselect"; "layersep"; "layout"; "len"; "levels"; "levelsgap";
"lhead"; "lheight"; "lp"; "ltail"; "lwidth"; "margin"; "maxiter"; "mclimit"; "mindist"; "minlen"; "mode"; "model"; "mosek"; "newrank"; "nodesep";
"nojustify"; "normalize"; "notranslate"; "nslimit"; "nslimit1"; "ordering"; "orientation"; "outputorder"; "overlap"; "overlap_scaling";
"overlap_shrink"; "pack"; "packmode"; "pad"; "page"; "pagedir"; "pencolor"; "penwidth"; "peripheries"; "pin"; "pos"; "quadtree"; "quantum"; "rank";
"rankdir"; "ranksep"; "ratio"; "rects"; "regular"; "remincross"; "repulsiveforce"; "resolution"; "root"; "rotate"; "rotation"; "samehead"; "sametail";
"samplepoints"; "scale"; "searchsize"; "sep"; "shape"; "shapefile"; "showboxes"; "sides"; "size"; "skew"; "smoothing"; "sortv"; "splines"; "start";
"style"; "stylesheet"; "tail_lp"; "tailURL"; "tailclip"; "tailhref"; "taillabel"; "tailport"; "tailtarget"; "tailtooltip"; "target"; "tooltip";
"truecolor"; "vertices"; "viewport"; "voro_margin"; "weight"; "width"; "xdotversion"; "xlabel"; "xlp"; "z"].
Definition extra_names : list string := ["mincross"; "ssize"; "outline"; "f"].
