*.cache
*.vo
*.vok
*.vos
*.glob
*.aux
.*.aux
*.d
rocq/Makefile
rocq/Makefile.conf
rocq/.Makefile.d
