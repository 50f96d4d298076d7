*.vo
*.vok
*.vos
*.glob
.*.aux
.lia.cache
.nia.cache
rocq/Makefile*
rocq/.Makefile*
*.nra.cache
.nra.cache
.lia.cache
