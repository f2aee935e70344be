*.vo
*.vos
*.vok
*.glob
*.aux
.lia.cache
.nia.cache
.*.cache
rocq/Makefile
rocq/Makefile.conf
rocq/.Makefile.d
rocq/.coqdeps.d
