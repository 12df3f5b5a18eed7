.*.cache
